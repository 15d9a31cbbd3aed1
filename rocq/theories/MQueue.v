(* MQueue.v: the task queue of src/workers/queue.h as programs of MThread.v. *)
From Coq Require Import ZArith Bool List.
From Verif Require Import MThread.
Import ListNotations.
Local Open Scope Z_scope.

(* src/workers/queue.h:8-18 struct armas_ac_queue: one variable for each field, the items at
   addresses from 16 on, one mutex, two condition variables *)
Definition SIZE : Z := 0.
Definition COUNT : Z := 1.
Definition HEAD : Z := 2.
Definition TAIL : Z := 3.
Definition ITEM (i : Z) : Z := 16 + i.
Definition MLOCK : Z := 0.
Definition EMPTY : Z := 0.
Definition FULL : Z := 1.

(* uint32_t arithmetic *)
Definition u32 (x : Z) : Z := x mod 2 ^ 32.

(* the functions of the interface with their arguments; v is the item (a pointer), b the
   broadcast argument *)
Inductive qop : Type :=
| EnqNowait (v : Z) (b : bool)
| Enq (v : Z) (b : bool)
| DeqNowait (b : bool)
| Deq (b : bool)
| WaitUntilEmpty
| WaitOnEmpty
| WaitWhileEmpty
| WaitOnFull
| WaitWhileFull
| Read
| Write (v : Z).

(* a call, and a return with the return code and the item stored in *v (0 if none is stored) *)
Inductive qev : Type :=
| ECall (o : qop)
| ERet (o : qop) (rc v : Z).

(* a thread between two calls; the heads of the while loops *)
Inductive qlab : Type :=
| Client
| EnqLoop (v : Z) (b : bool)
| DeqLoop (b : bool)
| ReadLoop
| WriteLoop (v : Z).

Definition qprog : Type := prog qlab qop qev.

Section Queue.
(* the length of the allocated array; accesses outside of it are faults *)
Variable alen : Z.
Definition in_array (i : Z) : bool := (0 <=? i) && (i <? alen).

(* src/workers/queue.h:62-70 taskq_append *)
Definition taskq_append (v : Z) (k : bool -> qprog) : qprog :=
  let! c := get COUNT in
  let signal := c =? 0 in
  let! t := get TAIL in
  if negb (in_array t) then Fault else
  Put (ITEM t) v (
  let! c := get COUNT in
  Put COUNT (u32 (c + 1)) (
  let! t := get TAIL in
  let! s := get SIZE in
  if s =? 0 then Fault (* division by zero *) else
  Put TAIL (u32 (t + 1) mod s) (k signal))).

(* src/workers/queue.h:72-81 taskq_remove *)
Definition taskq_remove (k : Z -> bool -> qprog) : qprog :=
  let! c := get COUNT in
  let! s := get SIZE in
  let signal := c =? s in
  let! h := get HEAD in
  if negb (in_array h) then Fault else
  let! v := get (ITEM h) in
  let! h := get HEAD in
  Put (ITEM h) 0 (
  let! c := get COUNT in
  Put COUNT (u32 (c - 1)) (
  let! h := get HEAD in
  let! s := get SIZE in
  if s =? 0 then Fault else
  Put HEAD (u32 (h + 1) mod s) (k v signal))).

(* if (signal) { if (broadcast) pthread_cond_broadcast(&ch->empty); else pthread_cond_signal(&ch->empty); } *)
Definition notify (signal b : bool) (k : qprog) : qprog :=
  if signal then (if b then Broadcast EMPTY k else Signal EMPTY k) else k.

(* src/workers/queue.h:83-99 taskq_enqueue_nowait; k gets the return code *)
Definition taskq_enqueue_nowait (v : Z) (b : bool) (k : Z -> qprog) : qprog :=
  Lock MLOCK (
  let! c := get COUNT in
  let! s := get SIZE in
  if c =? s then Unlock MLOCK (k (-1))
  else taskq_append v (fun signal => notify signal b (Unlock MLOCK (k 0)))).

(* src/workers/queue.h:101-117 taskq_enqueue, from the head of the while loop on *)
Definition taskq_enqueue_loop (v : Z) (b : bool) (k : Z -> qprog) : qprog :=
  let! c := get COUNT in
  let! s := get SIZE in
  if c =? s then Wait FULL MLOCK (Goto (EnqLoop v b))
  else taskq_append v (fun signal => notify signal b (Unlock MLOCK (k 0))).

(* src/workers/queue.h:120-137 taskq_dequeue_nowait; k gets the return code and the item *)
Definition taskq_dequeue_nowait (b : bool) (k : Z -> Z -> qprog) : qprog :=
  Lock MLOCK (
  let! c := get COUNT in
  if c =? 0 then Unlock MLOCK (k (-1) 0)
  else taskq_remove (fun v signal => notify signal b (Unlock MLOCK (k 0 v)))).

(* src/workers/queue.h:139-155 taskq_dequeue, from the head of the while loop on *)
Definition taskq_dequeue_loop (b : bool) (k : Z -> Z -> qprog) : qprog :=
  let! c := get COUNT in
  if c =? 0 then Wait EMPTY MLOCK (Goto (DeqLoop b))
  else taskq_remove (fun v signal => notify signal b (Unlock MLOCK (k 0 v))).

(* src/workers/queue.h:160-219 the functions that wait once if the condition holds.  A timeout
   is a wake-up that may happen at any time; the return code of the timed waits (used by no
   caller) is left out. *)
Definition wait_if (cv : Z) (cond : Z -> Z -> bool) (k : qprog) : qprog :=
  Lock MLOCK (
  let! c := get COUNT in
  let! s := get SIZE in
  if cond c s then Wait cv MLOCK (Unlock MLOCK k) else Unlock MLOCK k).

Definition taskq_wait_until_empty := wait_if EMPTY (fun c s => negb (c =? 0)).
Definition taskq_wait_onempty := wait_if EMPTY (fun c s => c =? 0).
Definition taskq_wait_while_empty := wait_if EMPTY (fun c s => c =? 0).
Definition taskq_wait_onfull := wait_if FULL (fun c s => c =? s).
Definition taskq_wait_while_full := wait_if EMPTY (fun c s => c =? s).

Definition ret (o : qop) (rc v : Z) : qprog := Emit (ERet o rc v) (Goto Client).

Definition call (o : qop) : qprog :=
  Emit (ECall o)
  match o with
  | EnqNowait v b => taskq_enqueue_nowait v b (fun rc => ret o rc 0)
  | Enq v b => Lock MLOCK (Goto (EnqLoop v b))
  | DeqNowait b => taskq_dequeue_nowait b (fun rc v => ret o rc v)
  | Deq b => Lock MLOCK (Goto (DeqLoop b))
  | WaitUntilEmpty => taskq_wait_until_empty (ret o 0 0)
  | WaitOnEmpty => taskq_wait_onempty (ret o 0 0)
  | WaitWhileEmpty => taskq_wait_while_empty (ret o 0 0)
  | WaitOnFull => taskq_wait_onfull (ret o 0 0)
  | WaitWhileFull => taskq_wait_while_full (ret o 0 0)
  | Read => Goto ReadLoop
  | Write v => Goto (WriteLoop v)
  end.

(* src/workers/queue.h:221-236 taskq_read and taskq_write are the two loops.  uses: the calls that
   the threads of the program make. *)
Definition qcode (uses : qop -> bool) (l : qlab) : qprog :=
  match l with
  | Client => Pick (fun o => if uses o then call o else Goto Client)
  | EnqLoop v b => taskq_enqueue_loop v b (fun rc => ret (Enq v b) rc 0)
  | DeqLoop b => taskq_dequeue_loop b (fun rc v => ret (Deq b) rc v)
  | ReadLoop => taskq_dequeue_nowait true (fun rc v =>
      if rc =? 0 then ret Read 0 v else taskq_wait_onempty (Goto ReadLoop))
  | WriteLoop v => taskq_enqueue_nowait v true (fun rc =>
      if rc =? 0 then ret (Write v) 0 0 else taskq_wait_onfull (Goto (WriteLoop v)))
  end.

End Queue.

(* src/workers/queue.h:20-34 taskq_init with a successful malloc; what malloc returns is
   arbitrary (m).  Every thread may make any of the calls at any time. *)
Definition qinit (m : Z -> Z) (qlen : Z) : state qlab qop qev :=
  mkstate (setm (setm (setm (setm m SIZE qlen) COUNT 0) HEAD 0) TAIL 0) (fun _ => None) (fun _ => Run (Goto Client)) [].
