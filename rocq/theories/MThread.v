(* MThread.v: threads with shared variables, mutexes, condition variables, atomic operations and
   futexes.  The code of src/workers is written as programs of this machine, one instruction for
   each access to a shared variable and for each library call. *)
From Coq Require Import ZArith Bool List.
Import ListNotations.
Local Open Scope Z_scope.

Section Machine.
  (* Lb: labels of the code, Ch: choices of the environment, Ev: observable events *)
  Variables (Lb Ch Ev : Type).

  Inductive prog : Type :=
  | Halt                                       (* the thread has ended *)
  | Fault                                      (* assertion failed, or undefined behaviour *)
  | Goto (l : Lb)
  | Pick (k : Ch -> prog)                      (* any choice *)
  | Emit (e : Ev) (k : prog)
  | Get (x : Z) (k : Z -> prog)                (* ordinary read of a shared variable *)
  | Put (x v : Z) (k : prog)                   (* ordinary write *)
  | Cas (x o n : Z) (k : Z -> prog)            (* __sync_val_compare_and_swap, returns the old value *)
  | Xchg (x v : Z) (k : Z -> prog)             (* __atomic_exchange, returns the old value *)
  | Fadd (x d : Z) (k : Z -> prog)             (* __sync_fetch_and_add, returns the old value *)
  | FWait (x v : Z) (k : prog)                 (* futex_wait *)
  | FWake (x : Z) (all : bool) (k : prog)      (* futex_wake with count 1 or INT_MAX *)
  | Lock (l : Z) (k : prog)                    (* pthread_mutex_lock *)
  | Unlock (l : Z) (k : prog)                  (* pthread_mutex_unlock *)
  | Wait (cv l : Z) (k : prog)                 (* pthread_cond_wait, pthread_cond_timedwait *)
  | Signal (cv : Z) (k : prog)                 (* pthread_cond_signal *)
  | Broadcast (cv : Z) (k : prog).             (* pthread_cond_broadcast *)

  Inductive tstate : Type :=
  | Run (c : prog)
  | Asleep (cv l : Z) (k : prog)               (* in pthread_cond_wait *)
  | FAsleep (x : Z) (k : prog).                (* in futex_wait *)

  (* A woken thread takes the mutex again before it returns from pthread_cond_wait. *)

  Record state : Type := mkstate {
    mem : Z -> Z;                              (* shared variables *)
    owner : Z -> option nat;                   (* who holds the mutex *)
    thr : nat -> tstate;                       (* one thread for every number *)
    trace : list (nat * Ev) }.                 (* events, the latest first *)

  Variable code : Lb -> prog.

  Definition setm (m : Z -> Z) (x v : Z) : Z -> Z := fun y => if y =? x then v else m y.
  Definition seto (o : Z -> option nat) (l : Z) (w : option nat) : Z -> option nat := fun y => if y =? l then w else o y.
  Definition sett (t : nat -> tstate) (i : nat) (s : tstate) : nat -> tstate := fun j => if Nat.eqb j i then s else t j.
  Definition wake_all (t : nat -> tstate) (cv : Z) : nat -> tstate := fun j =>
    match t j with Asleep cv' l k => if cv' =? cv then Run (Lock l k) else t j | _ => t j end.
  Definition fwake_all (t : nat -> tstate) (x : Z) : nat -> tstate := fun j =>
    match t j with FAsleep x' k => if x' =? x then Run k else t j | _ => t j end.

  (* One instruction of thread i; sp marks the steps that are spurious wake-ups (or timeouts of
     pthread_cond_timedwait, which may happen at any time). *)
  Inductive step : bool -> nat -> state -> state -> Prop :=
  | s_goto : forall i m o t tr l, t i = Run (Goto l) ->
      step false i (mkstate m o t tr) (mkstate m o (sett t i (Run (code l))) tr)
  | s_pick : forall i m o t tr k c, t i = Run (Pick k) ->
      step false i (mkstate m o t tr) (mkstate m o (sett t i (Run (k c))) tr)
  | s_emit : forall i m o t tr e k, t i = Run (Emit e k) ->
      step false i (mkstate m o t tr) (mkstate m o (sett t i (Run k)) ((i, e) :: tr))
  | s_get : forall i m o t tr x k, t i = Run (Get x k) ->
      step false i (mkstate m o t tr) (mkstate m o (sett t i (Run (k (m x)))) tr)
  | s_put : forall i m o t tr x v k, t i = Run (Put x v k) ->
      step false i (mkstate m o t tr) (mkstate (setm m x v) o (sett t i (Run k)) tr)
  | s_cas : forall i m o t tr x a b k, t i = Run (Cas x a b k) ->
      step false i (mkstate m o t tr) (mkstate (if m x =? a then setm m x b else m) o (sett t i (Run (k (m x)))) tr)
  | s_xchg : forall i m o t tr x v k, t i = Run (Xchg x v k) ->
      step false i (mkstate m o t tr) (mkstate (setm m x v) o (sett t i (Run (k (m x)))) tr)
  | s_fadd : forall i m o t tr x d k, t i = Run (Fadd x d k) ->
      step false i (mkstate m o t tr) (mkstate (setm m x (m x + d)) o (sett t i (Run (k (m x)))) tr)
  | s_fwait : forall i m o t tr x v k, t i = Run (FWait x v k) ->
      step false i (mkstate m o t tr) (mkstate m o (sett t i (if m x =? v then FAsleep x k else Run k)) tr)
  | s_fwake1 : forall i m o t tr x k j k', t i = Run (FWake x false k) -> t j = FAsleep x k' ->
      step false i (mkstate m o t tr) (mkstate m o (sett (sett t i (Run k)) j (Run k')) tr)
  | s_fwake0 : forall i m o t tr x k, t i = Run (FWake x false k) -> (forall j k', t j <> FAsleep x k') ->
      step false i (mkstate m o t tr) (mkstate m o (sett t i (Run k)) tr)
  | s_fwake : forall i m o t tr x k, t i = Run (FWake x true k) ->
      step false i (mkstate m o t tr) (mkstate m o (sett (fwake_all t x) i (Run k)) tr)
  | s_lock : forall i m o t tr l k, t i = Run (Lock l k) -> o l = None ->
      step false i (mkstate m o t tr) (mkstate m (seto o l (Some i)) (sett t i (Run k)) tr)
  | s_unlock : forall i m o t tr l k, t i = Run (Unlock l k) -> o l = Some i ->
      step false i (mkstate m o t tr) (mkstate m (seto o l None) (sett t i (Run k)) tr)
  | s_wait : forall i m o t tr cv l k, t i = Run (Wait cv l k) -> o l = Some i ->
      step false i (mkstate m o t tr) (mkstate m (seto o l None) (sett t i (Asleep cv l k)) tr)
  | s_signal1 : forall i m o t tr cv k j l k', t i = Run (Signal cv k) -> t j = Asleep cv l k' ->
      step false i (mkstate m o t tr) (mkstate m o (sett (sett t i (Run k)) j (Run (Lock l k'))) tr)
  | s_signal0 : forall i m o t tr cv k, t i = Run (Signal cv k) -> (forall j l k', t j <> Asleep cv l k') ->
      step false i (mkstate m o t tr) (mkstate m o (sett t i (Run k)) tr)
  | s_broadcast : forall i m o t tr cv k, t i = Run (Broadcast cv k) ->
      step false i (mkstate m o t tr) (mkstate m o (sett (wake_all t cv) i (Run k)) tr)
  | s_spurious : forall i m o t tr cv l k, t i = Asleep cv l k ->
      step true i (mkstate m o t tr) (mkstate m o (sett t i (Run (Lock l k))) tr)
  | s_fspurious : forall i m o t tr x k, t i = FAsleep x k ->
      step true i (mkstate m o t tr) (mkstate m o (sett t i (Run k)) tr).

  (* executions; with sp = false those without spurious wake-ups *)
  Inductive exec (sp : bool) (s0 : state) : state -> Prop :=
  | x_0 : exec sp s0 s0
  | x_S : forall b i s s', exec sp s0 s -> step b i s s' -> (b = true -> sp = true) -> exec sp s0 s'.

  (* an ordinary access to variable x is next *)
  Definition reads (c : prog) (x : Z) : Prop := exists k, c = Get x k.
  Definition writes (c : prog) (x : Z) : Prop := exists v k, c = Put x v k.
  Definition atomic (c : prog) (x : Z) : Prop :=
    (exists a b k, c = Cas x a b k) \/ (exists v k, c = Xchg x v k) \/ (exists d k, c = Fadd x d k).

  (* data race: two threads are about to access one variable, one of them with an ordinary
     access, one of them (possibly the same) writing *)
  Definition race (s : state) : Prop :=
    exists i j c d x, i <> j /\ thr s i = Run c /\ thr s j = Run d /\
      ((writes c x /\ (reads d x \/ writes d x \/ atomic d x)) \/ (atomic c x /\ reads d x)).

  Definition faulty (s : state) : Prop := exists i, thr s i = Run Fault.
End Machine.

Arguments Halt {Lb Ch Ev}.
Arguments Fault {Lb Ch Ev}.
Arguments Goto {Lb Ch Ev} l.
Arguments Pick {Lb Ch Ev} k.
Arguments Emit {Lb Ch Ev} e k.
Arguments Get {Lb Ch Ev} x k.
Arguments Put {Lb Ch Ev} x v k.
Arguments Cas {Lb Ch Ev} x o n k.
Arguments Xchg {Lb Ch Ev} x v k.
Arguments Fadd {Lb Ch Ev} x d k.
Arguments FWait {Lb Ch Ev} x v k.
Arguments FWake {Lb Ch Ev} x all k.
Arguments Lock {Lb Ch Ev} l k.
Arguments Unlock {Lb Ch Ev} l k.
Arguments Wait {Lb Ch Ev} cv l k.
Arguments Signal {Lb Ch Ev} cv k.
Arguments Broadcast {Lb Ch Ev} cv k.
Arguments Run {Lb Ch Ev} c.
Arguments Asleep {Lb Ch Ev} cv l k.
Arguments FAsleep {Lb Ch Ev} x k.
Arguments mkstate {Lb Ch Ev}.
Arguments mem {Lb Ch Ev}.
Arguments owner {Lb Ch Ev}.
Arguments thr {Lb Ch Ev}.
Arguments trace {Lb Ch Ev}.
Arguments sett {Lb Ch Ev}.
Arguments wake_all {Lb Ch Ev}.
Arguments fwake_all {Lb Ch Ev}.
Arguments step {Lb Ch Ev} code.
Arguments exec {Lb Ch Ev} code.
Arguments race {Lb Ch Ev}.
Arguments faulty {Lb Ch Ev}.
Arguments reads {Lb Ch Ev}.
Arguments writes {Lb Ch Ev}.
Arguments atomic {Lb Ch Ev}.

Notation "'let!' x := 'get' a 'in' c" := (Get a (fun x => c)) (at level 200, x name, right associativity).
