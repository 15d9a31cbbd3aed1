(* MWorkers.v: the scheduler with persistent workers (src/workers/workers.c) and the caller that
   schedules tasks and waits for them (src/workers/gemm.c).  The operations on a task queue and on
   the completion counter are single steps here (C31 and C34 justify it); every access to a field
   of a task is one step.  The rounds of taskq_read on an empty queue and of taskq_write on a full
   one (timed waits, src/workers/queue.h:221-237) change nothing and are left out. *)
From Coq Require Import ZArith Bool List Arith.
Import ListNotations.
Local Open Scope Z_scope.

(* ARMAS_OSCHED_ROUNDROBIN, ARMAS_OSCHED_TWO: the options that matter *)
Record sopt : Type := mksopt { roundrobin : bool; two : bool }.

(* src/workers/workers.c:190-239 sched_workers_schedule: the queues that get the task (its wcnt is
   their number) and the new round robin index; rnd: the values of lrand48(), used one after the
   other.  None: lrand48() never gives a second queue (the loop does not end within the values). *)
Fixpoint other (k nworker : Z) (rnd : list Z) : option Z :=
  match rnd with
  | [] => None
  | x :: rnd' => if x mod nworker =? k then other k nworker rnd' else Some (x mod nworker)
  end.
Definition targets (o : sopt) (nworker rr : Z) (rnd : list Z) : option (list Z * Z) :=
  if nworker =? 1 then Some ([0], rr)
  else if two o then
    if nworker =? 2 then Some ([0; 1], rr)
    else if roundrobin o then
      let k := rr in
      let rr := (rr + 1) mod nworker in
      let j := rr in
      let rr := (rr + 1) mod nworker in
      Some ([k; j], rr)
    else match rnd with
         | [] => None
         | x :: rnd' => match other (x mod nworker) nworker rnd' with
                        | Some j => Some ([x mod nworker; j], rr)
                        | None => None end
         end
  else if roundrobin o then Some ([rr], (rr + 1) mod nworker)
  else match rnd with [] => None | x :: _ => Some ([x mod nworker], rr) end.

(* src/workers/workers.c:78-110 worker_thread: the positions of a worker.  The statistics (nsched,
   nexec) are left out; running stays 1. *)
Inductive wpc : Type :=
| WTop                          (* while (W->running) *)
| WRead                         (* taskq_read *)
| WClaim (t : nat)              (* cmpxchg(&T->wid, 0, W->id) *)
| WDec (t : nat) (won : bool)   (* atomic_dec(&T->wcnt) *)
| WRun (t : nat)                (* (T->func)(T->args) *)
| WCount (t : nat).             (* armas_counter_decrement(T->ready) *)

(* src/workers/gemm.c:127-138 and 210-224: the positions of the caller.  MPoll: worker_all_ready
   (src/workers/workers.h:40-53), round k, task i, sum r so far. *)
Inductive mpc : Type :=
| MSched (ts : list nat)                        (* tasks not yet scheduled *)
| MWrite (t : nat) (qs : list nat) (ts : list nat)   (* task t has still to be written to qs *)
| MWait                                         (* armas_counter_wait *)
| MPoll (k i : nat) (r : Z)
| MFree                                         (* assert passed, tasks are freed *)
| MAbort.                                       (* assert(refcnt == 0) failed *)

Record wstate : Type := mkw {
  queue : nat -> list nat;      (* tasks in the queue of a worker, oldest first *)
  pc : nat -> wpc;
  wid : nat -> Z;
  wcnt : nat -> Z;
  count : Z;                    (* completion counter *)
  mp : mpc;
  log : list (nat * nat) }.     (* executions (worker, task), the latest first *)

Definition upd {A} (f : nat -> A) (i : nat) (a : A) : nat -> A := fun j => if Nat.eqb j i then a else f j.

Section Workers.
  Variables (cap : nat) (ntask : nat) (route : nat -> list nat).
  (* early: armas_counter_wait may return after a spurious wake-up *)
  Variable early : bool.

  Inductive wstep : wstate -> wstate -> Prop :=
  | s_top : forall i q p w c n m l, p i = WTop ->
      wstep (mkw q p w c n m l) (mkw q (upd p i WRead) w c n m l)
  | s_read : forall i q p w c n m l t r, p i = WRead -> q i = t :: r ->
      wstep (mkw q p w c n m l) (mkw (upd q i r) (upd p i (WClaim t)) w c n m l)
  | s_claim : forall i q p w c n m l t, p i = WClaim t ->
      wstep (mkw q p w c n m l)
            (mkw q (upd p i (WDec t (w t =? 0))) (if w t =? 0 then upd w t (Z.of_nat i + 1) else w) c n m l)
  | s_dec : forall i q p w c n m l t b, p i = WDec t b ->
      wstep (mkw q p w c n m l) (mkw q (upd p i (if b then WRun t else WTop)) w (upd c t (c t - 1)) n m l)
  | s_run : forall i q p w c n m l t, p i = WRun t ->
      wstep (mkw q p w c n m l) (mkw q (upd p i (WCount t)) w c n m ((i, t) :: l))
  | s_count : forall i q p w c n m l t, p i = WCount t ->
      wstep (mkw q p w c n m l) (mkw q (upd p i WTop) w c (n - 1) m l)
  | s_sched : forall q p w c n l t ts,
      wstep (mkw q p w c n (MSched (t :: ts)) l)
            (mkw q p (upd w t 0) (upd c t (Z.of_nat (length (route t)))) n (MWrite t (route t) ts) l)
  | s_write : forall q p w c n l t k qs ts, (length (q k) < cap)%nat ->
      wstep (mkw q p w c n (MWrite t (k :: qs) ts) l) (mkw (upd q k (q k ++ [t])) p w c n (MWrite t qs ts) l)
  | s_written : forall q p w c n l t ts,
      wstep (mkw q p w c n (MWrite t [] ts) l) (mkw q p w c n (MSched ts) l)
  | s_all : forall q p w c n l, wstep (mkw q p w c n (MSched []) l) (mkw q p w c n MWait l)
  | s_wait : forall q p w c n l, n = 0 \/ early = true ->
      wstep (mkw q p w c n MWait l) (mkw q p w c n (MPoll 0 0 0) l)
  | s_poll : forall q p w c n l k i r, (i < ntask)%nat ->
      wstep (mkw q p w c n (MPoll k i r) l) (mkw q p w c n (MPoll k (S i) (r + c i)) l)
  | s_round : forall q p w c n l k r,
      wstep (mkw q p w c n (MPoll k ntask r) l)
            (mkw q p w c n (if r =? 0 then MFree else if Nat.ltb (S k) 50 then MPoll (S k) 0 0 else MAbort) l).

  (* src/workers/gemm.c:204-210: calloc, armas_counter_init.  The workers have started. *)
  Definition winit : wstate :=
    mkw (fun _ => []) (fun _ => WRead) (fun _ => 0) (fun _ => 0) (Z.of_nat ntask) (MSched (seq 0 ntask)) [].

  Inductive wsteps : nat -> wstate -> Prop :=
  | w_0 : wsteps 0 winit
  | w_S : forall k s s', wsteps k s -> wstep s s' -> wsteps (S k) s'.
End Workers.
