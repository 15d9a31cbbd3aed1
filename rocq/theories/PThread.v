(* PThread.v: programs that access shared variables only while they hold one mutex. *)
From Coq Require Import ZArith Lia Bool List Arith Classical_Prop.
From Verif Require Import MThread.
Import ListNotations.
Local Open Scope Z_scope.

Lemma sett_same : forall Lb Ch Ev (t : nat -> tstate Lb Ch Ev) i s, sett t i s i = s.
Proof. intros. unfold sett. rewrite Nat.eqb_refl. reflexivity. Qed.
Lemma sett_other : forall Lb Ch Ev (t : nat -> tstate Lb Ch Ev) i j s, j <> i -> sett t i s j = t j.
Proof. intros. unfold sett. destruct (Nat.eqb_spec j i); congruence. Qed.
Lemma seto_same : forall o l w, seto o l w l = w.
Proof. intros. unfold seto. rewrite Z.eqb_refl. reflexivity. Qed.

Definition supd {A} (S : nat -> A) (i : nat) (a : A) : nat -> A := fun j => if Nat.eqb j i then a else S j.
Lemma supd_same : forall A (S : nat -> A) i a, supd S i a i = a.
Proof. intros. unfold supd. rewrite Nat.eqb_refl. reflexivity. Qed.
Lemma supd_other : forall A (S : nat -> A) i j a, j <> i -> supd S i a j = S j.
Proof. intros. unfold supd. destruct (Nat.eqb_spec j i); congruence. Qed.

Section Monitor.
  Context {Lb Ch Ev : Type}.
  Variable code : Lb -> prog Lb Ch Ev.
  (* G: abstract state protected by the mutex LK, described by R; St: what each thread is doing.
     A thread may apply lin when it gives up the mutex. *)
  Variables (G St : Type) (LK : Z) (R : (Z -> Z) -> G -> Prop).
  Variables (lin : St -> G -> St -> G -> Prop) (ev : Ev -> St -> St -> Prop).
  Variables (Pout Phold : Lb -> St -> Prop) (g0 : G) (st0 : St).
  (* The threads that sleep on CV with a continuation in hon wait for J to become false; whoever
     makes it false has to broadcast CV before giving up the mutex.  The flag in the mode says that
     this is still to be done. *)
  Variables (CV : Z) (J : (Z -> Z) -> bool) (hon : prog Lb Ch Ev -> Prop).

  Definition md : Type := option ((Z -> Z) * G * bool).

  Fixpoint ok (mode : md) (st : St) (c : prog Lb Ch Ev) {struct c} : Prop :=
    match c with
    | Halt => mode = None
    | Fault => False
    | Goto l => match mode with None => Pout l st | Some (m, g, d) => R m g /\ Phold l st /\ d = false end
    | Pick k => mode = None /\ forall x, ok None st (k x)
    | Emit e k => mode = None /\ exists st', ev e st st' /\ ok None st' k
    | Get x k => match mode with None => False | Some (m, g, d) => ok mode st (k (m x)) end
    | Put x v k => match mode with None => False | Some (m, g, d) =>
        ok (Some (setm m x v, g, d || (J m && negb (J (setm m x v))))) st k end
    | Lock l k => mode = None /\ l = LK /\ forall m g, R m g -> ok (Some (m, g, false)) st k
    | Unlock l k => match mode with None => False | Some (m, g, d) =>
        l = LK /\ d = false /\ exists st' g', lin st g st' g' /\ R m g' /\ ok None st' k end
    | Wait cv l k => match mode with None => False | Some (m, g, d) =>
        l = LK /\ d = false /\ R m g /\ (hon k -> cv = CV /\ J m = true) /\ forall m g, R m g -> ok (Some (m, g, false)) st k end
    | Signal cv k => match mode with None => False | Some _ => ok mode st k end
    | Broadcast cv k => match mode with None => False | Some (m, g, d) => ok (Some (m, g, if cv =? CV then false else d)) st k end
    | _ => False
    end.

  Hypothesis code_out : forall l st, Pout l st -> ok None st (code l).
  Hypothesis code_hold : forall l st m g, R m g -> Phold l st -> ok (Some (m, g, false)) st (code l).

  (* the events so far, with a point for each lin *)
  Inductive glegal : list (nat * Ev) -> (nat -> St) -> G -> Prop :=
  | gl_0 : glegal [] (fun _ => st0) g0
  | gl_ev : forall tr S g i e st', glegal tr S g -> ev e (S i) st' -> glegal ((i, e) :: tr) (supd S i st') g
  | gl_lin : forall tr S g i st' g', glegal tr S g -> lin (S i) g st' g' -> glegal tr (supd S i st') g'.

  Definition mode (s : state Lb Ch Ev) (g : G) (d : bool) (i : nat) : md :=
    match owner s LK with Some j => if Nat.eqb j i then Some (mem s, g, d) else None | None => None end.

  Definition tok (s : state Lb Ch Ev) (S : nat -> St) (g : G) (d : bool) (i : nat) : Prop :=
    match thr s i with
    | Run c => ok (mode s g d i) (S i) c
    | Asleep cv l k => l = LK /\ owner s LK <> Some i /\ (hon k -> cv = CV /\ (J (mem s) = true \/ d = true)) /\
                       forall m g, R m g -> ok (Some (m, g, false)) (S i) k
    | FAsleep _ _ => False
    end.

  Definition MInv (s : state Lb Ch Ev) (S : nat -> St) (g : G) (d : bool) : Prop :=
    glegal (trace s) S g /\ (owner s LK = None -> R (mem s) g /\ d = false) /\ forall i, tok s S g d i.

  Lemma mode_own : forall m o t tr g d i, o LK = Some i -> mode (mkstate m o t tr) g d i = Some (m, g, d).
  Proof. intros. unfold mode. cbn. rewrite H, Nat.eqb_refl. reflexivity. Qed.
  Lemma mode_other : forall m o t tr g d i, o LK <> Some i -> mode (mkstate m o t tr) g d i = None.
  Proof. intros. unfold mode. cbn. destruct (o LK) as [j|]; auto. destruct (Nat.eqb_spec j i); congruence. Qed.
  Lemma mode_some : forall m o t tr g d i x, mode (mkstate m o t tr) g d i = Some x -> o LK = Some i /\ x = (m, g, d).
  Proof.
    intros m o t tr g d i x. unfold mode. cbn. destruct (o LK) as [j|]; [|discriminate].
    destruct (Nat.eqb_spec j i) as [->|]; [|discriminate]. intros E. injection E as <-. auto.
  Qed.

  (* the threads other than the one that does a step *)
  Lemma frame : forall m m' o o' t t' tr tr' S S' g g' d d' j,
    tok (mkstate m o t tr) S g d j -> t' j = t j -> S' j = S j ->
    o LK <> Some j -> o' LK <> Some j -> (J m = true \/ d = true -> J m' = true \/ d' = true) ->
    tok (mkstate m' o' t' tr') S' g' d' j.
  Proof.
    intros m m' o o' t t' tr tr' S S' g g' d d' j H Et ES Ho Ho' HJ. unfold tok in *. cbn [thr owner mem] in *. rewrite Et, ES.
    destruct (t j) as [c|cv l k|x k]; auto.
    - rewrite mode_other in * by auto. exact H.
    - tauto.
  Qed.
  Lemma frame_same : forall m o t t' tr tr' S S' g d j,
    tok (mkstate m o t tr) S g d j -> t' j = t j -> S' j = S j -> tok (mkstate m o t' tr') S' g d j.
  Proof.
    intros m o t t' tr tr' S S' g d j H Et ES. unfold tok in *. cbn [thr owner] in *. rewrite Et, ES. exact H.
  Qed.

  (* a step of thread i that changes neither the variables nor the mutex *)
  Lemma plain : forall m o t tr S g d i c, MInv (mkstate m o t tr) S g d ->
    ok (mode (mkstate m o t tr) g d i) (S i) c -> MInv (mkstate m o (sett t i (Run c)) tr) S g d.
  Proof.
    intros m o t tr S g d i c (HL & HR & HT) Hi. split; [exact HL|split; [exact HR|]]. intros j.
    destruct (Nat.eq_dec j i) as [->|Hn].
    - unfold tok. cbn [thr]. rewrite sett_same. exact Hi.
    - apply (frame_same m o t _ tr _ S _ g); auto. rewrite sett_other; auto.
  Qed.

  (* a wake-up of thread j *)
  Lemma woken : forall m o t tr S g d j cv l k, MInv (mkstate m o t tr) S g d -> t j = Asleep cv l k ->
    MInv (mkstate m o (sett t j (Run (Lock l k))) tr) S g d.
  Proof.
    intros m o t tr S g d j cv l k H E. apply plain; auto. destruct H as (_ & _ & HT). specialize (HT j).
    unfold tok in HT. cbn [thr owner] in HT. rewrite E in HT. destruct HT as (-> & Ho & _ & H).
    rewrite mode_other by auto. cbn [ok]. auto.
  Qed.

  Local Ltac own E := match type of E with mode ?s ?g ?d ?i = Some ?x =>
    let Eo := fresh "Eo" in let Ex := fresh "Ex" in
    destruct (mode_some _ _ _ _ _ _ _ _ E) as (Eo & Ex); injection Ex as -> -> -> end.

  Lemma MInv_step : forall b i s s' S g d, MInv s S g d -> step code b i s s' -> exists S' g' d', MInv s' S' g' d'.
  Proof.
    intros b i s s' S g d HI Hs. pose proof HI as (HL & HR & HT). inversion Hs; subst; cbn [mem owner thr trace] in *;
      pose proof (HT i) as Hi; unfold tok in Hi; cbn [mem owner thr trace] in Hi;
      match goal with H : _ i = _ |- _ => rewrite H in Hi end; cbn [ok] in Hi; try tauto.
    - (* goto *)
      exists S, g, d. apply plain; auto.
      destruct (mode (mkstate m o t tr) g d i) as [((m1 & g1) & d1)|] eqn:E; [destruct Hi as (? & ? & ->); apply code_hold; auto|apply code_out; auto].
    - (* pick *)
      destruct Hi as (E & Hi). exists S, g, d. apply plain; auto. rewrite E. auto.
    - (* emit *)
      destruct Hi as (E & st' & He & Hi). exists (supd S i st'), g, d. split; [constructor; auto|split; [auto|]].
      intros j. destruct (Nat.eq_dec j i) as [->|Hn].
      + unfold tok. cbn [thr]. rewrite sett_same, supd_same.
        change (ok (mode (mkstate m o t tr) g d i) st' k). rewrite E. auto.
      + apply (frame_same m o t _ tr _ S _ g); auto; [rewrite sett_other; auto|rewrite supd_other; auto].
    - (* get *)
      destruct (mode (mkstate m o t tr) g d i) as [((m1 & g1) & d1)|] eqn:E; [|tauto]. own E.
      exists S, g, d. apply plain; auto. rewrite E. auto.
    - (* put *)
      destruct (mode (mkstate m o t tr) g d i) as [((m1 & g1) & d1)|] eqn:E; [|tauto]. own E.
      exists S, g, (d || (J m && negb (J (setm m x v)))). split; [auto|split; [cbn [owner]; congruence|]]. intros j.
      destruct (Nat.eq_dec j i) as [->|Hn].
      + unfold tok. cbn [thr]. rewrite sett_same, mode_own by auto. auto.
      + apply (frame m _ o _ t _ tr _ S _ g _ d); auto; try congruence; [rewrite sett_other; auto|].
        intros [->| ->]; [destruct (J (setm m x v)); [auto|right; destruct d; reflexivity]|right; reflexivity].
    - (* lock *)
      destruct Hi as (E & -> & Hi). destruct HR as (HR & ->); [assumption|].
      exists S, g, false. split; [auto|split; [cbn [owner]; rewrite seto_same; discriminate|]]. intros j.
      destruct (Nat.eq_dec j i) as [->|Hn].
      + unfold tok. cbn [thr]. rewrite sett_same, mode_own by apply seto_same. auto.
      + apply (frame m _ o _ t _ tr _ S _ g _ false); auto; [rewrite sett_other; auto|congruence|rewrite seto_same; congruence].
    - (* unlock *)
      destruct (mode (mkstate m o t tr) g d i) as [((m1 & g1) & d1)|] eqn:E; [|tauto]. own E.
      destruct Hi as (-> & -> & st' & g' & Hl & Hr & Hi). exists (supd S i st'), g', false.
      split; [econstructor; eauto|split; [auto|]]. intros j. destruct (Nat.eq_dec j i) as [->|Hn].
      + unfold tok. cbn [thr]. rewrite sett_same, supd_same, mode_other by (rewrite seto_same; congruence). auto.
      + apply (frame m _ o _ t _ tr _ S _ g _ false); auto; [rewrite sett_other; auto|rewrite supd_other; auto|congruence|rewrite seto_same; congruence].
    - (* wait *)
      destruct (mode (mkstate m o t tr) g d i) as [((m1 & g1) & d1)|] eqn:E; [|tauto]. own E.
      destruct Hi as (-> & -> & Hr & Hh & Hi). exists S, g, false.
      split; [auto|split; [auto|]]. intros j. destruct (Nat.eq_dec j i) as [->|Hn].
      + unfold tok. cbn [thr owner mem]. rewrite sett_same, seto_same. split; [reflexivity|split; [congruence|split; [intros Hk; destruct (Hh Hk); auto|auto]]].
      + apply (frame m _ o _ t _ tr _ S _ g _ false); auto; [rewrite sett_other; auto|congruence|rewrite seto_same; congruence].
    - (* signal *)
      destruct (mode (mkstate m o t tr) g d i) as [x|] eqn:E; [|tauto]. exists S, g, d.
      assert (HI' : MInv (mkstate m o (sett t i (Run k)) tr) S g d) by (apply plain; auto; rewrite E; auto).
      eapply woken; [exact HI'|]. rewrite sett_other; [eassumption|]. congruence.
    - (* signal, nobody waits *)
      destruct (mode (mkstate m o t tr) g d i) as [x|] eqn:E; [|tauto]. exists S, g, d. apply plain; auto. rewrite E. auto.
    - (* broadcast *)
      destruct (mode (mkstate m o t tr) g d i) as [((m1 & g1) & d1)|] eqn:E; [|tauto]. own E.
      exists S, g, (if cv =? CV then false else d).
      split; [auto|split; [cbn [owner]; congruence|]]. intros j. destruct (Nat.eq_dec j i) as [->|Hn].
      + unfold tok. cbn [thr]. rewrite sett_same, mode_own by auto. auto.
      + unfold tok. cbn [thr owner mem]. rewrite sett_other by auto. pose proof (HT j) as Hj. unfold tok in Hj. cbn [thr owner mem] in Hj.
        unfold wake_all. destruct (t j) as [c|cv' l k'|y k'] eqn:Ej; auto.
        * rewrite mode_other in * by congruence. exact Hj.
        * destruct Hj as (-> & Ho & Hh & Hj). destruct (Z.eqb_spec cv' cv) as [->|Hne].
          -- rewrite mode_other by auto. cbn [ok]. auto.
          -- split; [reflexivity|split; [auto|split; [|auto]]]. intros Hk. destruct (Hh Hk) as (-> & HJ).
             destruct (Z.eqb_spec cv CV); [congruence|auto].
    - (* spurious *)
      exists S, g, d. eapply woken; eauto.
  Qed.

  Lemma MInv_exec : forall sp s0 s S0, MInv s0 S0 g0 false -> exec code sp s0 s -> exists S g d, MInv s S g d.
  Proof.
    intros sp s0 s S0 H0 H. induction H as [|b i s s' H IH Hs Hb]; [eauto|].
    destruct IH as (S & g & d & HI). eapply MInv_step; eauto.
  Qed.

  (* ordinary accesses are made by the thread that holds the mutex *)
  Lemma MInv_good : forall s S g d, MInv s S g d -> ~ race s /\ ~ faulty s.
  Proof.
    intros [m o t tr] S g d0 (HL & HR & HT). cbn [mem owner thr trace] in *. split.
    - intros (i & j & c & d & x & Hn & Ei & Ej & H). cbn [thr] in *.
      pose proof (HT i) as Hi. pose proof (HT j) as Hj. unfold tok in Hi, Hj. cbn [thr] in Hi, Hj. rewrite Ei in Hi. rewrite Ej in Hj.
      assert (A : forall c i, ok (mode (mkstate m o t tr) g d0 i) (S i) c -> (reads c x \/ writes c x) -> o LK = Some i).
      { clear. intros c i H [(k & ->)|(v & k & ->)]; cbn [ok] in H;
          (destruct (mode (mkstate m o t tr) g d0 i) as [y|] eqn:E; [|tauto]; apply mode_some in E; tauto). }
      assert (B : forall c i, ok (mode (mkstate m o t tr) g d0 i) (S i) c -> ~ atomic c x).
      { clear. intros c i H [(a & b & k & ->)|[(v & k & ->)|(d & k & ->)]]; exact H. }
      destruct H as [(Hw & [Hr|[Hw'|Ha]])|(Ha & _)].
      + assert (o LK = Some i) by eauto. assert (o LK = Some j) by eauto. congruence.
      + assert (o LK = Some i) by eauto. assert (o LK = Some j) by eauto. congruence.
      + exact (B d j Hj Ha).
      + exact (B c i Hi Ha).
    - intros (i & Ei). cbn [thr] in Ei. pose proof (HT i) as Hi. unfold tok in Hi. cbn [thr] in Hi. rewrite Ei in Hi. exact Hi.
  Qed.

  (* when nobody holds the mutex, the sleepers have a reason to sleep *)
  Lemma MInv_sleep : forall s S g d i cv l k, MInv s S g d -> owner s LK = None -> thr s i = Asleep cv l k -> hon k -> J (mem s) = true.
  Proof.
    intros [m o t tr] S g d i cv l k (HL & HR & HT) Ho E Hk. cbn [mem owner thr trace] in *. specialize (HT i).
    unfold tok in HT. cbn [thr owner mem] in HT. rewrite E in HT. destruct HT as (_ & _ & Hh & _).
    destruct (Hh Hk) as (_ & [H| ->]); auto. destruct (HR Ho); discriminate.
  Qed.

  (* the thread that holds the mutex can always do its next step *)
  Lemma MInv_owner : forall s S g d i, MInv s S g d -> owner s LK = Some i -> exists s', step code false i s s'.
  Proof.
    intros [m o t tr] S g d i (HL & HR & HT) Ho. cbn [owner] in Ho. pose proof (HT i) as Hi. unfold tok in Hi. cbn [thr owner] in Hi.
    destruct (t i) as [c|cv l k|x k] eqn:E; [|tauto|tauto]. rewrite mode_own in Hi by auto.
    destruct c; cbn [ok] in Hi; try tauto; try (destruct Hi; discriminate); try discriminate.
    - eexists. apply s_goto; eauto.
    - eexists. apply s_get; eauto.
    - eexists. apply s_put; eauto.
    - destruct Hi as (-> & _). eexists. apply s_unlock; eauto.
    - destruct Hi as (-> & _). eexists. apply s_wait; eauto.
    - destruct (classic (exists j l k', t j = Asleep cv l k')) as [(j & l & k' & Ej)|Hn].
      + eexists. eapply s_signal1; eauto.
      + eexists. apply s_signal0 with (cv := cv) (k := c); [exact E|]. intros j l k' Ej. apply Hn. eauto.
    - eexists. apply s_broadcast with (cv := cv); eauto.
  Qed.
End Monitor.

(* a scheduler to build executions with: thread i does its next instruction, with choice c if it
   is a Pick, waking thread j if it is a signal; sp: a spurious wake-up of thread i *)
Section Script.
  Context {Lb Ch Ev : Type}.
  Variable code : Lb -> prog Lb Ch Ev.

  Record act : Type := mkact { who : nat; choice : option Ch; target : nat; spur : bool }.

  Definition tick (a : act) (s : state Lb Ch Ev) : option (state Lb Ch Ev) :=
    let i := who a in
    let m := mem s in let o := owner s in let t := thr s in let tr := trace s in
    if spur a then
      match t i with
      | Asleep cv l k => Some (mkstate m o (sett t i (Run (Lock l k))) tr)
      | FAsleep x k => Some (mkstate m o (sett t i (Run k)) tr)
      | _ => None
      end
    else
    match t i with
    | Run c =>
      match c with
      | Goto l => Some (mkstate m o (sett t i (Run (code l))) tr)
      | Pick k => match choice a with Some c => Some (mkstate m o (sett t i (Run (k c))) tr) | None => None end
      | Emit e k => Some (mkstate m o (sett t i (Run k)) ((i, e) :: tr))
      | Get x k => Some (mkstate m o (sett t i (Run (k (m x)))) tr)
      | Put x v k => Some (mkstate (setm m x v) o (sett t i (Run k)) tr)
      | Cas x a b k => Some (mkstate (if m x =? a then setm m x b else m) o (sett t i (Run (k (m x)))) tr)
      | Xchg x v k => Some (mkstate (setm m x v) o (sett t i (Run (k (m x)))) tr)
      | Fadd x d k => Some (mkstate (setm m x (m x + d)) o (sett t i (Run (k (m x)))) tr)
      | FWait x v k => Some (mkstate m o (sett t i (if m x =? v then FAsleep x k else Run k)) tr)
      | FWake x true k => Some (mkstate m o (sett (fwake_all t x) i (Run k)) tr)
      | FWake x false k =>
        match t (target a) with
        | FAsleep x' k' => if x' =? x then Some (mkstate m o (sett (sett t i (Run k)) (target a) (Run k')) tr) else None
        | _ => None
        end
      | Lock l k => match o l with None => Some (mkstate m (seto o l (Some i)) (sett t i (Run k)) tr) | _ => None end
      | Unlock l k => match o l with
                      | Some j => if Nat.eqb j i then Some (mkstate m (seto o l None) (sett t i (Run k)) tr) else None
                      | None => None end
      | Wait cv l k => match o l with
                      | Some j => if Nat.eqb j i then Some (mkstate m (seto o l None) (sett t i (Asleep cv l k)) tr) else None
                      | None => None end
      | Signal cv k =>
        match t (target a) with
        | Asleep cv' l k' => if cv' =? cv then Some (mkstate m o (sett (sett t i (Run k)) (target a) (Run (Lock l k'))) tr) else None
        | _ => None
        end
      | Broadcast cv k => Some (mkstate m o (sett (wake_all t cv) i (Run k)) tr)
      | _ => None
      end
    | _ => None
    end.

  Lemma tick_step : forall a s s', tick a s = Some s' -> step code (spur a) (who a) s s'.
  Proof.
    intros a [m o t tr] s' H. unfold tick in H. cbn [mem owner thr trace] in H.
    destruct (spur a) eqn:Es.
    - destruct (t (who a)) eqn:E; inversion H; subst; econstructor; eauto.
    - destruct (t (who a)) as [c| |] eqn:E; try discriminate. destruct c; try discriminate.
      + inversion H; subst; econstructor; eauto.
      + destruct (choice a); inversion H; subst; econstructor; eauto.
      + inversion H; subst; econstructor; eauto.
      + inversion H; subst; econstructor; eauto.
      + inversion H; subst; econstructor; eauto.
      + inversion H; subst; eapply s_cas; eauto.
      + inversion H; subst; eapply s_xchg; eauto.
      + inversion H; subst; eapply s_fadd; eauto.
      + inversion H; subst; eapply s_fwait; eauto.
      + destruct all; [inversion H; subst; econstructor; eauto|].
        destruct (t (target a)) eqn:Ej; try discriminate. destruct (Z.eqb_spec x0 x) as [->|]; inversion H; subst. eapply s_fwake1; eauto.
      + destruct (o l) eqn:Eo; inversion H; subst; econstructor; eauto.
      + destruct (o l) as [j|] eqn:Eo; try discriminate. destruct (Nat.eqb_spec j (who a)) as [->|]; inversion H; subst; econstructor; eauto.
      + destruct (o l) as [j|] eqn:Eo; try discriminate. destruct (Nat.eqb_spec j (who a)) as [->|]; inversion H; subst; econstructor; eauto.
      + destruct (t (target a)) as [|cv' l k|] eqn:Ej; try discriminate. destruct (Z.eqb_spec cv' cv) as [->|]; inversion H; subst. eapply s_signal1; eauto.
      + inversion H; subst; econstructor; eauto.
  Qed.

  Fixpoint script (l : list act) (s : state Lb Ch Ev) : option (state Lb Ch Ev) :=
    match l with
    | [] => Some s
    | a :: l' => match tick a s with Some s' => script l' s' | None => None end
    end.

  Lemma exec_trans : forall sp s0 s1 s2, exec code sp s0 s1 -> exec code sp s1 s2 -> exec code sp s0 s2.
  Proof. intros sp s0 s1 s2 H1 H2. induction H2; auto. econstructor; eauto. Qed.

  Lemma script_exec : forall sp l s s', forallb (fun a => implb (spur a) sp) l = true -> script l s = Some s' -> exec code sp s s'.
  Proof.
    intros sp. induction l as [|a l IH]; intros s s' Hl H; cbn [script] in H.
    - injection H as <-. constructor.
    - destruct (tick a s) as [s1|] eqn:E; [|discriminate]. cbn [forallb] in Hl. apply andb_prop in Hl. destruct Hl as (Ha & Hl).
      apply exec_trans with s1; [|eauto]. econstructor; [constructor|apply tick_step; eauto|].
      intros Es. rewrite Es in Ha. exact Ha.
  Qed.

  (* a check of the state a script leads to *)
  Definition leads (l : list act) (s : state Lb Ch Ev) (P : state Lb Ch Ev -> bool) : bool :=
    match script l s with Some s' => P s' | None => false end.

  Lemma leads_exec : forall sp l s P, leads l s P = true -> forallb (fun a => implb (spur a) sp) l = true ->
    exists s', exec code sp s s' /\ P s' = true.
  Proof.
    intros sp l s P H Hl. unfold leads in H. destruct (script l s) as [s'|] eqn:E; [|discriminate].
    exists s'. split; [eapply script_exec; eauto|exact H].
  Qed.

  (* go on with thread i as long as it can *)
  Fixpoint drive (fuel : nat) (i j : nat) (s : state Lb Ch Ev) : state Lb Ch Ev :=
    match fuel with
    | O => s
    | S f => match tick (mkact i None j false) s with Some s' => drive f i j s' | None => s end
    end.
  Lemma drive_exec : forall sp fuel i j s, exec code sp s (drive fuel i j s).
  Proof.
    intros sp. induction fuel as [|f IH]; intros i j s; cbn [drive]; [constructor|].
    destruct (tick (mkact i None j false) s) as [s1|] eqn:E; [|constructor].
    apply exec_trans with s1; [|apply IH]. econstructor; [constructor|apply tick_step; eauto|]. discriminate.
  Qed.
  Fixpoint saga (l : list act) (s : state Lb Ch Ev) : option (state Lb Ch Ev) :=
    match l with
    | [] => Some s
    | a :: l' => match tick a s with Some s' => saga l' (drive 500 (who a) (target a) s') | None => None end
    end.
  Lemma saga_exec : forall sp l s s', forallb (fun a => implb (spur a) sp) l = true -> saga l s = Some s' -> exec code sp s s'.
  Proof.
    intros sp. induction l as [|a l IH]; intros s s' Hl H; cbn [saga] in H.
    - injection H as <-. constructor.
    - destruct (tick a s) as [s1|] eqn:E; [|discriminate]. cbn [forallb] in Hl. apply andb_prop in Hl. destruct Hl as (Ha & Hl).
      apply exec_trans with s1; [|apply exec_trans with (drive 500 (who a) (target a) s1); [apply drive_exec|eauto]].
      econstructor; [constructor|apply tick_step; eauto|]. intros Es. rewrite Es in Ha. exact Ha.
  Qed.
  Definition tells (l : list act) (s : state Lb Ch Ev) (P : state Lb Ch Ev -> bool) : bool :=
    match saga l s with Some s' => P s' | None => false end.
  Lemma tells_exec : forall sp l s P, tells l s P = true -> forallb (fun a => implb (spur a) sp) l = true ->
    exists s', exec code sp s s' /\ P s' = true.
  Proof.
    intros sp l s P H Hl. unfold tells in H. destruct (saga l s) as [s'|] eqn:E; [|discriminate].
    exists s'. split; [eapply saga_exec; eauto|exact H].
  Qed.
End Script.

(* n instructions of thread i *)
Definition go {Ch} (n : nat) (i : nat) : list (@act Ch) := repeat (mkact i None 0 false) n.
Definition pick {Ch} (i : nat) (c : Ch) : list (@act Ch) := [mkact i (Some c) 0 false].
Definition wake {Ch} (i j : nat) : list (@act Ch) := [mkact i None j false].
Definition spurious {Ch} (i : nat) : list (@act Ch) := [mkact i None 0 true].
