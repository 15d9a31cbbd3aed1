(* MPar.v: threads that execute programs of Mem.v at the same time on one memory, and the
   tile tasks of the parallel matrix-matrix product (src/workers/gemm.c, src/threaded/gemm.c). *)
From Coq Require Import ZArith Bool List.
From Verif Require Import Mem MView MFlags MNum MBase MGemm.
Import ListNotations.
Local Open Scope Z_scope.
Local Open Scope prog_scope.

Section Pool.
  Context {T : Type}.

  (* thread number i still has to execute the program p i *)
  Definition pool : Type := nat -> M T unit.

  Definition pset (p : pool) (i : nat) (c : M T unit) : pool := fun j => if Nat.eqb j i then c else p j.

  (* One access of one of the n threads.  The order in which the threads take their steps is
     arbitrary.  Each access is one step: a program without data races has only such executions
     in the C11 memory model, and C26_interleaving proves that there are none. *)
  Inductive pstep (L : Z -> bool) (n : nat) : (Z -> T) * pool -> (Z -> T) * pool -> Prop :=
  | ps_rd : forall m p i a k, (i < n)%nat -> p i = rdk a k -> L a = true ->
      pstep L n (m, p) (m, pset p i (k (m a)))
  | ps_wr : forall m p i a v k, (i < n)%nat -> p i = wrk a v k -> L a = true ->
      pstep L n (m, p) ((fun b => if b =? a then v else m b), pset p i k).

  (* q steps *)
  Inductive psteps (L : Z -> bool) (n : nat) : nat -> (Z -> T) * pool -> (Z -> T) * pool -> Prop :=
  | ps_0 : forall s, psteps L n 0 s s
  | ps_S : forall q s s' s'', psteps L n q s s' -> pstep L n s' s'' -> psteps L n (S q) s s''.

  Definition finished (n : nat) (s : (Z -> T) * pool) : Prop := forall i, (i < n)%nat -> snd s i = ret tt.

  (* two threads are about to access the same address and one of them writes *)
  Definition racing (n : nat) (s : (Z -> T) * pool) : Prop :=
    exists i j a v k, (i < n)%nat /\ (j < n)%nat /\ i <> j /\ snd s i = wrk a v k /\
      ((exists k', snd s j = rdk a k') \/ (exists v' k', snd s j = wrk a v' k')).

  (* thread i has neither finished nor can it do its next access *)
  Definition stuck (L : Z -> bool) (n : nat) (s : (Z -> T) * pool) : Prop :=
    exists i, (i < n)%nat /\
      match snd s i with ret _ => False | fail => True | rdk a _ => L a = false | wrk a _ _ => L a = false end.
End Pool.

Section Tasks.
  Context {T : Type}.
  Variable K : num T.

  (* src/workers/gemm.c:38-87 and src/threaded/gemm.c:36-90 compute_block: the part of C a task
     computes, with the scratch buffer cb of the thread that runs it.  Only TRANSA and TRANSB
     select the parts of A and B. *)
  Definition compute_block (cb : cbuf) (mb nb kb p : Z) (beta : T) (C : view) (alpha : T) (A B : view) (flags : Z)
      (blk : block) : M T unit :=
    let Cb := armas_submatrix_unsafe C (b_row blk) (b_column blk) (b_nrows blk) (b_ncolumns blk) in
    let s := Z.land flags (Z.lor ARMAS_TRANSA ARMAS_TRANSB) in
    let '(Ab, Bb) :=
      if s =? Z.lor ARMAS_TRANSA ARMAS_TRANSB then
        (armas_submatrix_unsafe A 0 (b_row blk) (rows A) (b_nrows blk),
         armas_submatrix_unsafe B (b_column blk) 0 (b_ncolumns blk) (cols B))
      else if s =? ARMAS_TRANSA then
        (armas_submatrix_unsafe A 0 (b_row blk) (rows A) (b_nrows blk),
         armas_submatrix_unsafe B 0 (b_column blk) (rows B) (b_ncolumns blk))
      else if s =? ARMAS_TRANSB then
        (armas_submatrix_unsafe A (b_row blk) 0 (b_nrows blk) (cols A),
         armas_submatrix_unsafe B (b_column blk) 0 (b_ncolumns blk) (cols B))
      else
        (armas_submatrix_unsafe A (b_row blk) 0 (b_nrows blk) (cols A),
         armas_submatrix_unsafe B 0 (b_column blk) (rows B) (b_ncolumns blk)) in
    armas_mult_kernel K beta Cb alpha Ab Bb flags (elem_cache (armas_cache_setup2 cb mb nb kb p) p).

  (* a thread runs the tasks it has claimed one after the other (src/workers/workers.c:78-105) *)
  Fixpoint run_tasks (l : list (M T unit)) : M T unit :=
    match l with
    | [] => ret tt
    | c :: l' => c ;; run_tasks l'
    end.

  (* worker number w with buffer cb w runs the tasks for the blocks in todo w *)
  Definition mult_pool (cb : nat -> cbuf) (mb nb kb p : Z) (beta : T) (C : view) (alpha : T) (A B : view) (flags : Z)
      (todo : nat -> list block) : pool :=
    fun w => run_tasks (map (compute_block (cb w) mb nb kb p beta C alpha A B flags) (todo w)).
End Tasks.
