(* Mem.v: the programming language the C code of hrautila/armas is modelled in.

   A C fragment that works on an array memory of elements of type T and yields
   a result of type A is a program: a sequence of single reads and writes of the
   memory, each of which may depend on the values read before.  The sequence of
   accesses is what other threads can interleave with (MPar.v); executed alone,
   a program is a function from the set of allocated addresses (which no modelled
   function changes) and the memory contents to either a result and new contents,
   or None.  None stands for undefined behaviour (a read or a write at an address
   that is not allocated) or for a computation that did not end within the fuel it
   was given; a theorem that promises Some excludes both.

   Addresses count array elements.  The C type int is modelled by Z (no
   wrap-around); see DESIGN.md. *)
From Coq Require Import ZArith.
Local Open Scope Z_scope.

Inductive M (T A : Type) : Type :=
| ret (a : A)                          (* the result *)
| fail                                 (* undefined behaviour / no result *)
| rdk (p : Z) (k : T -> M T A)         (* read *p, go on with the value *)
| wrk (p : Z) (v : T) (k : M T A).     (* *p = v;  go on *)
Arguments ret {T A} a.
Arguments fail {T A}.
Arguments rdk {T A} p k.
Arguments wrk {T A} p v k.

(* execution without other threads *)
Fixpoint run {T A} (c : M T A) (L : Z -> bool) (m : Z -> T) : option (A * (Z -> T)) :=
  match c with
  | ret a => Some (a, m)
  | fail => None
  | rdk p k => if L p then run (k (m p)) L m else None
  | wrk p v k => if L p then run k L (fun a => if a =? p then v else m a) else None
  end.
Coercion run : M >-> Funclass.

Fixpoint bind {T A B} (c : M T A) (f : A -> M T B) : M T B :=
  match c with
  | ret a => f a
  | fail => fail
  | rdk p k => rdk p (fun x => bind (k x) f)
  | wrk p v k => wrk p v (bind k f)
  end.

Lemma run_bind : forall T A B (c : M T A) (f : A -> M T B) L m,
  bind c f L m = match c L m with Some (a, m') => f a L m' | None => None end.
Proof.
  intros T A B c f L. induction c as [a| |p k IH|p v k IH]; intro m; cbn [bind run]; auto.
  - destruct (L p); auto.
  - destruct (L p); auto.
Qed.

(* the C expression  *p  (read) *)
Definition rd {T} (p : Z) : M T T := rdk p ret.

(* the C statement  *p = v; *)
Definition wr {T} (p : Z) (v : T) : M T unit := wrk p v (ret tt).

Lemma run_rd : forall T p L (m : Z -> T), rd p L m = if L p then Some (m p, m) else None.
Proof. reflexivity. Qed.

Lemma run_wr : forall T p v L (m : Z -> T),
  wr p v L m = if L p then Some (tt, fun a => if a =? p then v else m a) else None.
Proof. reflexivity. Qed.

Declare Scope prog_scope.
Delimit Scope prog_scope with prog.
Notation "x <- c ;; d" := (bind c (fun x => d))
  (at level 61, c at next level, right associativity) : prog_scope.
Notation "c ;; d" := (bind c (fun _ => d))
  (at level 61, right associativity) : prog_scope.
Local Open Scope prog_scope.

(* n rounds of a loop body with index i, i+s, i+2s, ... and loop state a *)
Fixpoint iter {T A} (n : nat) (i s : Z) (f : Z -> A -> M T A) (a : A) : M T A :=
  match n with
  | O => ret a
  | S n' => a' <- f i a ;; iter n' (i + s) s f a'
  end.

(* number of rounds of   for (i = lo; i < hi; i += s)   with s > 0 *)
Definition trips (lo hi s : Z) : nat := Z.to_nat ((hi - lo + (s - 1)) / s).

(* value of the index after that loop *)
Definition loop_end (lo hi s : Z) : Z := lo + s * Z.of_nat (trips lo hi s).

(* for (i = lo; i < hi; i += s) a = f(i, a); *)
Definition for_acc {T A} (lo hi s : Z) (f : Z -> A -> M T A) (a : A) : M T A :=
  iter (trips lo hi s) lo s f a.

(* for (i = lo; i < hi; i += s) f(i); *)
Definition for_up {T} (lo hi s : Z) (f : Z -> M T unit) : M T unit :=
  for_acc lo hi s (fun i _ => f i) tt.

(* for (i = hi; i >= lo; i -= 1) f(i); *)
Definition for_down {T} (hi lo : Z) (f : Z -> M T unit) : M T unit :=
  iter (Z.to_nat (hi - lo + 1)) hi (-1) (fun i _ => f i) tt.

Definition when {T} (b : bool) (c : M T unit) : M T unit :=
  if b then c else ret tt.

(* switch (r) { case 3: f(i); i++; case 2: f(i); i++; case 1: f(i); }
   with fall-through, the remainder of the loops unrolled four times *)
Definition tail3 {T A} (r i : Z) (f : Z -> A -> M T A) (a : A) : M T A :=
  if r =? 3 then a <- f i a ;; a <- f (i + 1) a ;; f (i + 2) a
  else if r =? 2 then a <- f i a ;; f (i + 1) a
  else if r =? 1 then f i a
  else ret a.

(* for (i = 0; i < N-3; i += 4) b4(i);  if (i == N) return;  switch (N-i) ... f *)
Definition unroll4_acc {T A} (N : Z) (b4 f : Z -> A -> M T A) (a : A) : M T A :=
  a <- for_acc 0 (N - 3) 4 b4 a ;;
  tail3 (N - loop_end 0 (N - 3) 4) (loop_end 0 (N - 3) 4) f a.

Definition unroll4 {T} (N : Z) (b4 f : Z -> M T unit) : M T unit :=
  unroll4_acc N (fun i _ => b4 i) (fun i _ => f i) tt.

(* for (j = 0; j < N-3; j += 4) b4(j);  for (; j < N; j++) f(j); *)
Definition unroll4c {T} (N : Z) (b4 f : Z -> M T unit) : M T unit :=
  for_up 0 (N - 3) 4 b4 ;;
  for_up (loop_end 0 (N - 3) 4) N 1 f.
