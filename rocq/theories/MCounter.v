(* MCounter.v: the completion counter and the barrier of src/workers/counter.h as programs of
   MThread.v. *)
From Coq Require Import ZArith Bool List.
From Verif Require Import MThread.
Import ListNotations.
Local Open Scope Z_scope.

(* src/workers/counter.h:10-14 struct armas_ac_counter *)
Definition CNT : Z := 0.
Definition CLOCK : Z := 0.
Definition READY : Z := 0.

Section Counter.
  Context {Lb Ch Ev : Type}.
  (* src/workers/counter.h:24-33 armas_counter_decrement, followed by k *)
  Definition armas_counter_decrement (k : prog Lb Ch Ev) : prog Lb Ch Ev :=
    Lock CLOCK (
    let! c := get CNT in
    Put CNT (c - 1) (
    let! c := get CNT in
    if c =? 0 then Signal READY (Unlock CLOCK k) else Unlock CLOCK k)).

  (* src/workers/counter.h:35-43 armas_counter_wait, followed by k *)
  Definition armas_counter_wait (k : prog Lb Ch Ev) : prog Lb Ch Ev :=
    Lock CLOCK (
    let! c := get CNT in
    if negb (c =? 0) then Wait READY CLOCK (Unlock CLOCK k) else Unlock CLOCK k).
End Counter.

(* The use of the counter in src/workers/gemm.c:210-219 with workers.c:94-102: the counter starts
   with the number of tasks, a worker decrements it after each task it has done, one thread waits.
   Worker n: n tasks are still to be done by this worker. *)
Inductive clab : Type :=
| Waiter
| Worker (n : nat).
Inductive cev : Type :=
| TaskDone
| Released.

Definition cprog : Type := prog clab unit cev.
Definition ccode (l : clab) : cprog :=
  match l with
  | Waiter => armas_counter_wait (Emit Released Halt)
  | Worker O => Halt
  | Worker (S n) => Emit TaskDone (armas_counter_decrement (Goto (Worker n)))
  end.

(* thread 0 waits, the threads 1 .. nw do d i tasks each *)
Definition cinit (m : Z -> Z) (n : Z) (nw : nat) (d : nat -> nat) : state clab unit cev :=
  mkstate (setm m CNT n) (fun _ => None)
    (fun i => match i with
              | O => Run (Goto Waiter)
              | S _ => if Nat.leb i nw then Run (Goto (Worker (d i))) else Run Halt
              end) [].
