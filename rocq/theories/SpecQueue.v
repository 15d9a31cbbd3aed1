(* SpecQueue.v: what a bounded first-in first-out queue shared by threads is. *)
From Coq Require Import ZArith List.
From Verif Require Import MThread MQueue.
Import ListNotations.
Local Open Scope Z_scope.

(* What one call does, in one indivisible moment, to the items in the queue (oldest first): the
   items before, the return code, the item delivered, the items after.  A call that has to wait
   has no moment until it can succeed. *)
Definition puts (cap x : Z) (q : list Z) (rc v : Z) (q' : list Z) : Prop :=
  Z.of_nat (length q) < cap /\ rc = 0 /\ v = 0 /\ q' = q ++ [x].
Definition takes (q : list Z) (rc v : Z) (q' : list Z) : Prop := rc = 0 /\ q = v :: q'.

Definition spec_step (cap : Z) (o : qop) (q : list Z) (rc v : Z) (q' : list Z) : Prop :=
  match o with
  | EnqNowait x _ => puts cap x q rc v q' \/ (Z.of_nat (length q) = cap /\ rc = -1 /\ v = 0 /\ q' = q)
  | Enq x _ | Write x => puts cap x q rc v q'
  | DeqNowait _ => takes q rc v q' \/ (q = [] /\ rc = -1 /\ v = 0 /\ q' = [])
  | Deq _ | Read => takes q rc v q'
  | _ => rc = 0 /\ v = 0 /\ q' = q
  end.

(* a history: calls, returns and the moments in between, the latest first *)
Inductive hev : Type :=
| HCall (o : qop)
| HDo (o : qop) (rc v : Z)
| HRet (o : qop) (rc v : Z).
Definition history : Type := list (nat * hev).

(* what the callers see of it *)
Fixpoint seen (h : history) : list (nat * qev) :=
  match h with
  | [] => []
  | (i, HCall o) :: h' => (i, ECall o) :: seen h'
  | (i, HRet o rc v) :: h' => (i, ERet o rc v) :: seen h'
  | (i, HDo _ _ _) :: h' => seen h'
  end.

Inductive status : Type :=
| Idle
| Called (o : qop)
| Done (o : qop) (rc v : Z).

Definition becomes (S : nat -> status) (i : nat) (s : status) (S' : nat -> status) : Prop :=
  S' i = s /\ forall j, j <> i -> S' j = S j.

(* histories of a bounded queue, with the state of the threads and the items in the queue after
   them: the moment of a call lies between the call and its return *)
Inductive legal (cap : Z) : history -> (nat -> status) -> list Z -> Prop :=
| l_0 : legal cap [] (fun _ => Idle) []
| l_call : forall h S q i o S', legal cap h S q -> S i = Idle -> becomes S i (Called o) S' ->
    legal cap ((i, HCall o) :: h) S' q
| l_do : forall h S q i o rc v q' S', legal cap h S q -> S i = Called o -> spec_step cap o q rc v q' ->
    becomes S i (Done o rc v) S' -> legal cap ((i, HDo o rc v) :: h) S' q'
| l_ret : forall h S q i o rc v S', legal cap h S q -> S i = Done o rc v -> becomes S i Idle S' ->
    legal cap ((i, HRet o rc v) :: h) S' q.

(* the items put into the queue and taken out of it, the oldest first *)
Definition put_of (e : hev) : list Z :=
  match e with
  | HDo (EnqNowait x _) rc _ => if rc =? 0 then [x] else []
  | HDo (Enq x _) _ _ | HDo (Write x) _ _ => [x]
  | _ => []
  end.
Definition taken_of (e : hev) : list Z :=
  match e with
  | HDo (DeqNowait _) rc v => if rc =? 0 then [v] else []
  | HDo (Deq _) _ v | HDo Read _ v => [v]
  | _ => []
  end.
Fixpoint all_put (h : history) : list Z :=
  match h with [] => [] | (_, e) :: h' => all_put h' ++ put_of e end.
Fixpoint all_taken (h : history) : list Z :=
  match h with [] => [] | (_, e) :: h' => all_taken h' ++ taken_of e end.
