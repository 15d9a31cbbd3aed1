(* MMutex.v: the futex lock of src/workers/sync.h as programs of MThread.v. *)
From Coq Require Import ZArith Bool List.
From Verif Require Import MThread.
Import ListNotations.
Local Open Scope Z_scope.

(* src/workers/sync.h:44-46 struct mutex *)
Definition VAL : Z := 0.

(* Threads that take and release the lock again and again; Wloop is the head of the while loop in
   mutex_lock.  A thread may stop between two uses. *)
Inductive mlab : Type :=
| MClient
| Wloop.
Inductive mev : Type :=
| Request       (* mutex_lock is called *)
| Acquired      (* and has returned *)
| Release       (* mutex_unlock is called *)
| Freed.        (* and has returned *)
Definition mprog : Type := prog mlab bool mev.

(* src/workers/sync.h:54-66 mutex_lock from the head of the while loop on *)
Definition mutex_lock_loop (k : mprog) : mprog :=
  FWait VAL 2 (Xchg VAL 2 (fun c => if negb (c =? 0) then Goto Wloop else k)).

(* src/workers/sync.h:54-66 mutex_lock *)
Definition mutex_lock (k : mprog) : mprog :=
  Cas VAL 0 1 (fun c =>
  if negb (c =? 0) then
    if negb (c =? 2) then Xchg VAL 2 (fun c => if negb (c =? 0) then Goto Wloop else k)
    else Goto Wloop
  else k).

(* src/workers/sync.h:68-75 mutex_unlock *)
Definition mutex_unlock (k : mprog) : mprog :=
  Fadd VAL (-1) (fun old =>
  if negb (old =? 1) then Put VAL 0 (FWake VAL false k) else k).

Definition critical : mprog := Emit Acquired (Emit Release (mutex_unlock (Emit Freed (Goto MClient)))).
Definition mcode (l : mlab) : mprog :=
  match l with
  | MClient => Pick (fun stop => if stop : bool then Halt else Emit Request (mutex_lock critical))
  | Wloop => mutex_lock_loop critical
  end.

(* src/workers/sync.h:48-52 mutex_init; any number of threads *)
Definition minit (m : Z -> Z) : state mlab bool mev :=
  mkstate (setm m VAL 0) (fun _ => None) (fun _ => Run (Goto MClient)) [].
