(* Properties_Copy.v: C06 matrix copy, C07 transposed copy, C08 vector swap and copy. *)
From Coq Require Import ZArith Lia Bool.
From Verif Require Import Mem MView SpecView MFlags MCopy PCopy.
Local Open Scope Z_scope.

(* ---- C06 ---- *)

Theorem C06_mcopy : forall T L (m : Z -> T) A B flags,
  wf A -> wf B -> allocated L A -> allocated L B -> disjoint A B ->
  rows A = rows B -> cols A = cols B -> has flags ARMAS_TRANS = false ->
  exists m', armas_mcopy A B flags L m = Some (0, m') /\
    (forall i j, pos A i j -> elt m' A i j = elt m B i j) /\ only_changes A m m'.
Proof. intros T. exact mcopy_spec. Qed.
Print Assumptions C06_mcopy.

(* two vectors: the length counts, not the orientation *)
Theorem C06_mcopy_vectors : forall T L (m : Z -> T) A B flags,
  isvec A -> isvec B -> wf A -> wf B -> allocated L A -> allocated L B -> disjoint A B ->
  vlen A = vlen B ->
  exists m', armas_mcopy A B flags L m = Some (0, m') /\
    (forall k, 0 <= k < vlen A -> velt m' A k = velt m B k) /\ only_changes A m m'.
Proof. intros T. exact mcopy_vec_spec. Qed.
Print Assumptions C06_mcopy_vectors.

(* shapes that do not agree: error code, memory untouched (not even read) *)
Theorem C06_mcopy_mismatch : forall T L (m : Z -> T) A B flags,
  (if armas_isvector A && armas_isvector B then vlen A <> vlen B
   else if has flags ARMAS_TRANS then rows A <> cols B \/ cols A <> rows B
   else rows A <> rows B \/ cols A <> cols B) ->
  armas_mcopy A B flags L m = Some (- ARMAS_ESIZE, m).
Proof. intros T. exact mcopy_mismatch. Qed.
Print Assumptions C06_mcopy_mismatch.

(* a 5x6 and a 6x5 matrix in two separate regions, with gaps between columns *)
Definition cp_A : view := mkview 100 7 5 6.
Definition cp_B : view := mkview 1000 9 5 6.
Definition cp_Bt : view := mkview 1000 9 6 5.
Definition cp_L (a : Z) : bool := (100 <=? a) && (a <? 2000).

Lemma cp_ok : forall e s r c e' s' r' c', 100 <= e -> 0 <= s -> 0 <= r <= s -> e + c * s <= e' ->
  0 <= s' -> 0 <= r' <= s' -> e' + c' * s' <= 2000 -> 0 <= c -> 0 <= c' ->
  let A := mkview e s r c in let B := mkview e' s' r' c' in
  wf A /\ wf B /\ allocated cp_L A /\ allocated cp_L B /\ disjoint A B.
Proof.
  intros e s r c e' s' r' c' H1 H2 H3 H4 H5 H6 H7 H8 H9 A B. unfold A, B.
  split; [unfold wf; cbn; lia|]. split; [unfold wf; cbn; lia|].
  assert (P : forall a, cell A a -> e <= a < e + c * s).
  { intros a (i & j & (Hi & Hj) & ->). unfold A in *; cbn [elems step rows cols] in *. nia. }
  assert (P' : forall a, cell B a -> e' <= a < e' + c' * s').
  { intros a (i & j & (Hi & Hj) & ->). unfold B in *; cbn [elems step rows cols] in *. nia. }
  split; [|split].
  - intros a Ha. apply P in Ha. unfold cp_L. apply andb_true_intro; split; lia.
  - intros a Ha. apply P' in Ha. unfold cp_L. apply andb_true_intro; split; lia.
  - intros a Ha Ha'. apply P in Ha. apply P' in Ha'. lia.
Qed.

Example C06_nonvacuous : wf cp_A /\ wf cp_B /\ allocated cp_L cp_A /\ allocated cp_L cp_B /\
  disjoint cp_A cp_B /\ rows cp_A = rows cp_B /\ cols cp_A = cols cp_B /\
  has (ARMAS_UPPER + ARMAS_UNIT) ARMAS_TRANS = false /\ pos cp_A 4 5.
Proof.
  destruct (cp_ok 100 7 5 6 1000 9 5 6) as (H1 & H2 & H3 & H4 & H5); try lia.
  repeat split; auto; try reflexivity; cbn; lia.
Qed.

(* ---- C07 ---- *)

Theorem C07_mcopy_transposed : forall T L (m : Z -> T) A B flags,
  wf A -> wf B -> allocated L A -> allocated L B -> disjoint A B ->
  rows A = cols B -> cols A = rows B -> has flags ARMAS_TRANS = true ->
  exists m', armas_mcopy A B flags L m = Some (0, m') /\
    (forall i j, pos B i j -> elt m' A j i = elt m B i j) /\ only_changes A m m'.
Proof. intros T. exact mcopy_trans_spec. Qed.
Print Assumptions C07_mcopy_transposed.

Theorem C07_transposed_twice : forall T L (m : Z -> T) A B C,
  wf A -> wf B -> wf C -> allocated L A -> allocated L B -> allocated L C ->
  disjoint A B -> disjoint B C -> disjoint A C ->
  rows B = cols A -> cols B = rows A -> rows C = rows A -> cols C = cols A ->
  exists m1 m2, armas_mcopy B A ARMAS_TRANS L m = Some (0, m1) /\
    armas_mcopy C B ARMAS_TRANS L m1 = Some (0, m2) /\
    (forall i j, pos A i j -> elt m2 C i j = elt m A i j).
Proof. intros T. exact trans_twice. Qed.
Print Assumptions C07_transposed_twice.

Example C07_nonvacuous : wf cp_A /\ wf cp_Bt /\ allocated cp_L cp_A /\ allocated cp_L cp_Bt /\
  disjoint cp_A cp_Bt /\ rows cp_A = cols cp_Bt /\ cols cp_A = rows cp_Bt /\
  has (ARMAS_TRANS + ARMAS_UPPER) ARMAS_TRANS = true /\ pos cp_Bt 5 4.
Proof.
  destruct (cp_ok 100 7 5 6 1000 9 6 5) as (H1 & H2 & H3 & H4 & H5); try lia.
  repeat split; auto; try reflexivity; cbn; lia.
Qed.

(* ---- C08 ---- *)

Theorem C08_swap : forall T L (m : Z -> T) Y X,
  isvec Y -> isvec X -> wf Y -> wf X -> allocated L Y -> allocated L X -> disjoint Y X ->
  vlen Y = vlen X ->
  exists m', armas_swap Y X L m = Some (0, m') /\
    (forall k, 0 <= k < vlen X -> velt m' Y k = velt m X k /\ velt m' X k = velt m Y k) /\
    (forall a, ~ cell Y a -> ~ cell X a -> m' a = m a).
Proof. intros T. exact swap_spec. Qed.
Print Assumptions C08_swap.

Theorem C08_swap_twice : forall T L (m : Z -> T) Y X,
  isvec Y -> isvec X -> wf Y -> wf X -> allocated L Y -> allocated L X -> disjoint Y X ->
  vlen Y = vlen X ->
  exists m1 m2, armas_swap Y X L m = Some (0, m1) /\ armas_swap Y X L m1 = Some (0, m2) /\
    forall a, m2 a = m a.
Proof. intros T. exact swap_twice. Qed.
Print Assumptions C08_swap_twice.

(* vectors of different lengths: the common prefix is copied *)
Theorem C08_copy : forall T L (m : Z -> T) Y X,
  isvec Y -> isvec X -> wf Y -> wf X -> allocated L Y -> allocated L X -> disjoint Y X ->
  exists m', armas_copy Y X L m = Some (0, m') /\
    (forall k, 0 <= k < vlen X -> k < vlen Y -> velt m' Y k = velt m X k) /\
    (forall k, vlen X <= k < vlen Y -> velt m' Y k = velt m Y k) /\
    only_changes Y m m'.
Proof. intros T. exact copy_spec. Qed.
Print Assumptions C08_copy.

(* a row vector with stride 7 and a column vector, both of length 6 *)
Definition sw_X : view := mkview 100 7 1 6.
Definition sw_Y : view := mkview 1000 9 6 1.

Example C08_nonvacuous : isvec sw_X /\ isvec sw_Y /\ wf sw_X /\ wf sw_Y /\
  allocated cp_L sw_X /\ allocated cp_L sw_Y /\ disjoint sw_X sw_Y /\ vlen sw_X = vlen sw_Y /\
  vlen sw_X = 6.
Proof.
  destruct (cp_ok 100 7 1 6 1000 9 6 1) as (H1 & H2 & H3 & H4 & H5); try lia.
  split; [left; reflexivity|]. split; [right; reflexivity|]. repeat split; auto; try reflexivity; cbn; lia.
Qed.
