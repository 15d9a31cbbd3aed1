(* Properties_Elem.v: C10 mscale, C11 madd, C12 mplus, C13 set_values,
   make_trm, apply, apply2, set_all. *)
From Coq Require Import ZArith Lia Bool ZifyBool.
From Verif Require Import Mem MView SpecView MFlags MCopy MNum SpecNum MBlas1 MElem
  PUpd PSum PBlas1 PElem Inst Properties_Copy Properties_Blas1.
Local Open Scope Z_scope.

(* the elements selected by the bits UPPER, LOWER and UNIT; bits = the mask of
   the selector bits the function looks at *)
Definition selected (bits flags i j : Z) : bool :=
  let s := Z.land flags bits in
  let n := if has flags ARMAS_UNIT then 1 else 0 in
  if s =? ARMAS_UPPER then i + n <=? j
  else if s =? ARMAS_LOWER then j + n <=? i
  else true.
Definition SUL : Z := ARMAS_SYMM + ARMAS_UPPER + ARMAS_LOWER.

(* ---- C10, matrices ---- *)

(* the whole matrix *)
Theorem C10_mscale_all : forall T (K : num T), is_ring K -> eqb_ok K ->
  forall L m A alpha flags, wf A -> allocated L A ->
  Z.land flags SUL <> ARMAS_UPPER -> Z.land flags SUL <> ARMAS_LOWER ->
  (Z.land flags SUL = ARMAS_SYMM -> rows A = cols A) ->
  exists m', armas_mscale K A alpha flags L m = Some (0, m') /\
    (forall i j, pos A i j -> elt m' A i j = mul K (elt m A i j) alpha) /\ only_changes A m m'.
Proof. intros T K HR HE L m A alpha flags. intros. apply mscale_all; auto. Qed.
Print Assumptions C10_mscale_all.

(* a symmetric matrix that is not square: error, nothing changed *)
Theorem C10_mscale_symm_error : forall T (K : num T) L m A alpha flags,
  Z.land flags SUL = ARMAS_SYMM -> rows A <> cols A ->
  armas_mscale K A alpha flags L m = Some (-1, m).
Proof.
  intros T K L m A alpha flags H1 H2. unfold armas_mscale. unfold SUL in H1. rewrite H1.
  change (ARMAS_SYMM =? ARMAS_UPPER) with false. change (ARMAS_SYMM =? ARMAS_LOWER) with false.
  change (ARMAS_SYMM =? ARMAS_SYMM) with true. replace (rows A =? cols A) with false by lia. reflexivity.
Qed.
Print Assumptions C10_mscale_symm_error.

(* lower triangle or trapezium; strictly lower only if not tall.  Missing:
   UPPER, and LOWER with UNIT on tall matrices, where the claim is false. *)
Theorem C10_mscale_lower_partial : forall T (K : num T) L m A alpha flags, wf A -> allocated L A ->
  Z.land flags SUL = ARMAS_LOWER ->
  (has flags ARMAS_UNIT = true -> rows A <= cols A) ->
  exists m', armas_mscale K A alpha flags L m = Some (0, m') /\
    (forall i j, pos A i j -> elt m' A i j =
       if selected SUL flags i j then mul K (elt m A i j) alpha else elt m A i j) /\
    only_changes A m m'.
Proof.
  intros T K L m A alpha flags WA LA H1 H2.
  destruct (mscale_lower K L m A alpha flags (if has flags ARMAS_UNIT then 1 else 0)) as (m' & E & H & O); auto.
  { destruct (has flags ARMAS_UNIT); [auto|lia]. }
  exists m'. split; [auto|split; [|auto]]. intros i j Hp. rewrite H by auto.
  unfold selected. rewrite H1. reflexivity.
Qed.
Print Assumptions C10_mscale_lower_partial.

Definition mscale_claim (flags : Z) (A : view) : Prop :=
  forall L m alpha, wf A -> allocated L A ->
  exists m', armas_mscale Znum A alpha flags L m = Some (0, m') /\
    (forall i j, pos A i j -> elt m' A i j =
       if selected SUL flags i j then elt m A i j * alpha else elt m A i j) /\ only_changes A m m'.

(* refute by running on a concrete matrix and looking at element (i, j) *)
Ltac refute_run A i j :=
  let H := fresh in let m := fresh in let E := fresh in let Hs := fresh in
  intros H; destruct (H cp_L (fun a => a) 3) as (m & E & Hs & _);
  [repeat split; cbv; congruence | apply (cp_ok 100 7 (rows A) (cols A) 1000 9 1 1); cbn; lia |];
  specialize (Hs i j ltac:(repeat split; cbv; congruence));
  vm_compute in E; injection E as <-; vm_compute in Hs; discriminate.

(* the upper triangle of a 3x3 matrix: element (0,2) is not scaled (mscale.c:135-140) *)
Theorem C10_mscale_upper_refuted : ~ mscale_claim ARMAS_UPPER (mkview 100 7 3 3).
Proof. refute_run (mkview 100 7 3 3) 0 2. Qed.
Print Assumptions C10_mscale_upper_refuted.

(* the strictly lower part of a 3x2 matrix: element (2,1) is not scaled (mscale.c:141-147) *)
Theorem C10_mscale_lower_unit_refuted : ~ mscale_claim (ARMAS_LOWER + ARMAS_UNIT) (mkview 100 7 3 2).
Proof. refute_run (mkview 100 7 3 2) 2 1. Qed.
Print Assumptions C10_mscale_lower_unit_refuted.

Example C10_nonvacuous : is_ring Znum /\ eqb_ok Znum /\ wf cp_A /\ allocated cp_L cp_A /\
  Z.land (ARMAS_LOWER + ARMAS_UNIT) SUL = ARMAS_LOWER /\ rows cp_A <= cols cp_A /\
  Z.land ARMAS_SYMM SUL = ARMAS_SYMM /\ Z.land 0 SUL <> ARMAS_UPPER.
Proof.
  split; [exact Z_ring|]. split; [exact Z_eqb|]. destruct C06_nonvacuous as (A1 & _ & A2 & _).
  repeat (split; [assumption || reflexivity || (cbv; congruence)|]). cbv; congruence.
Qed.

(* ---- C11 ---- *)

Theorem C11_madd_vector : forall T (K : num T) L m A alpha flags, wf A -> allocated L A -> isvec A ->
  exists m', armas_madd K A alpha flags L m = Some (0, m') /\
    (forall k, 0 <= k < vlen A -> velt m' A k = add K (velt m A k) alpha) /\ only_changes A m m'.
Proof. intros T. exact madd_vec. Qed.
Print Assumptions C11_madd_vector.

(* Missing: UPPER on wide matrices, UPPER with UNIT, LOWER with UNIT on tall
   matrices; the claim is false for these. *)
Theorem C11_madd_partial : forall T (K : num T) L m A alpha flags, wf A -> allocated L A -> ~ isvec A ->
  (Z.land flags SUL = ARMAS_SYMM -> rows A = cols A) ->
  (Z.land flags SUL = ARMAS_UPPER -> has flags ARMAS_UNIT = false /\ cols A <= rows A) ->
  (Z.land flags SUL = ARMAS_LOWER -> has flags ARMAS_UNIT = true -> rows A <= cols A) ->
  exists m', armas_madd K A alpha flags L m = Some (0, m') /\
    (forall i j, pos A i j -> elt m' A i j =
       if selected SUL flags i j then add K (elt m A i j) alpha else elt m A i j) /\
    only_changes A m m'.
Proof.
  intros T K L m A alpha flags WA LA VA HS HU HL.
  assert (X : exists sel, (forall i j, sel i j = selected SUL flags i j) /\
     exists m', armas_madd K A alpha flags L m = Some (0, m') /\
      (forall i j, pos A i j -> elt m' A i j =
         if sel i j then add K (elt m A i j) alpha else elt m A i j) /\ only_changes A m m').
  { unfold selected. destruct (Z.eq_dec (Z.land flags SUL) ARMAS_UPPER) as [E|E].
    - destruct (HU E) as (U1 & U2). exists (fun i j => i <=? j). split.
      + intros i j. rewrite E, U1. rewrite Z.add_0_r. reflexivity.
      + apply (madd_sel K L m A alpha flags (if has flags ARMAS_UNIT then 1 else 0)); auto; unfold SUL in *; try congruence;
          [intros _; rewrite U1; auto|intros X; rewrite E in X; discriminate X].
    - destruct (Z.eq_dec (Z.land flags SUL) ARMAS_LOWER) as [E'|E'].
      + exists (fun i j => j + (if has flags ARMAS_UNIT then 1 else 0) <=? i). split.
        * intros i j. rewrite E'. reflexivity.
        * apply (madd_sel K L m A alpha flags (if has flags ARMAS_UNIT then 1 else 0)); auto; unfold SUL in *; try congruence.
          intros _. split; auto. destruct (has flags ARMAS_UNIT); [auto|lia].
      + exists (fun i j => true). split.
        * intros i j. replace (_ =? ARMAS_UPPER) with false by lia.
          replace (_ =? ARMAS_LOWER) with false by lia. reflexivity.
        * apply (madd_sel K L m A alpha flags (if has flags ARMAS_UNIT then 1 else 0) (fun _ _ => true)); auto; unfold SUL in *; try congruence. }
  destruct X as (sel & Es & m' & E & H & O). exists m'. split; [auto|split; [|auto]].
  intros i j Hp. rewrite H, Es by auto. reflexivity.
Qed.
Print Assumptions C11_madd_partial.

Definition madd_claim (flags : Z) (A : view) : Prop :=
  forall L m alpha, wf A -> allocated L A ->
  exists m', armas_madd Znum A alpha flags L m = Some (0, m') /\
    (forall i j, pos A i j -> elt m' A i j =
       if selected SUL flags i j then elt m A i j + alpha else elt m A i j) /\ only_changes A m m'.

(* strictly upper part of a 3x3 matrix: element (0,1) is left out (madd.c:86-92) *)
Theorem C11_madd_upper_unit_refuted : ~ madd_claim (ARMAS_UPPER + ARMAS_UNIT) (mkview 100 7 3 3).
Proof. refute_run (mkview 100 7 3 3) 0 1. Qed.
Print Assumptions C11_madd_upper_unit_refuted.

Theorem C11_madd_lower_unit_refuted : ~ madd_claim (ARMAS_LOWER + ARMAS_UNIT) (mkview 100 7 3 2).
Proof. refute_run (mkview 100 7 3 2) 2 1. Qed.
Print Assumptions C11_madd_lower_unit_refuted.

(* upper part of a 2x4 view of a larger matrix: the cell below the view changes *)
Theorem C11_madd_upper_wide_refuted : ~ madd_claim ARMAS_UPPER (mkview 100 7 2 4).
Proof.
  intros H. destruct (H cp_L (fun a => a) 3) as (m & E & _ & Ho).
  - repeat split; cbv; congruence.
  - apply (cp_ok 100 7 2 4 1000 9 1 1); lia.
  - assert (N : ~ cell (mkview 100 7 2 4) 116).
    { intros (r & c & (P1 & P2) & Ea). cbn [rows cols elems step] in P1, P2, Ea. lia. }
    apply Ho in N. vm_compute in E. injection E as <-. vm_compute in N. discriminate.
Qed.
Print Assumptions C11_madd_upper_wide_refuted.

Example C11_nonvacuous : wf (mkview 100 7 6 4) /\ allocated cp_L (mkview 100 7 6 4) /\ ~ isvec (mkview 100 7 6 4) /\
  Z.land ARMAS_UPPER SUL = ARMAS_UPPER /\ has ARMAS_UPPER ARMAS_UNIT = false /\ 4 <= 6 /\
  wf cp_A /\ allocated cp_L cp_A /\ ~ isvec cp_A /\
  Z.land (ARMAS_LOWER + ARMAS_UNIT) SUL = ARMAS_LOWER /\ rows cp_A <= cols cp_A /\
  exists m', armas_madd Znum (mkview 100 7 6 4) 5 ARMAS_UPPER cp_L (fun a => a) = Some (0, m').
Proof.
  destruct (cp_ok 100 7 6 4 1000 9 5 6) as (H1 & _ & H2 & _); try lia.
  destruct C06_nonvacuous as (A1 & _ & A2 & _).
  repeat (split; [assumption || reflexivity || (cbv; congruence) || (intros [X|X]; cbv in X; congruence) |]).
  eexists. vm_compute. reflexivity.
Qed.

(* ---- C12 ---- *)

(* op(B) must have the shape of A, otherwise error and no change *)
Theorem C12_mplus_size : forall T (K : num T) L m alpha A beta B flags, wf A -> wf B ->
  0 < rows A -> 0 < cols A -> 0 < rows B -> 0 < cols B -> vlen B <> 1 -> ~ (isvec A /\ isvec B) ->
  let tr := has flags (ARMAS_TRANS + ARMAS_TRANSB) in
  rows A <> (if tr then cols B else rows B) \/ cols A <> (if tr then rows B else cols B) ->
  armas_mplus K alpha A beta B flags L m = Some (- ARMAS_ESIZE, m).
Proof.
  intros T K L m alpha A beta B flags WA WB H1 H2 H3 H4 H5 HV tr HS. unfold armas_mplus. fold tr.
  change (armas_size B) with (vlen B). unfold vlen, armas_size in *.
  replace (rows A * cols A =? 0) with false by nia. replace (rows B * cols B =? 0) with false by nia.
  replace (rows B * cols B =? 1) with false by lia. cbn [orb].
  replace (armas_isvector A && armas_isvector B) with false.
  2:{ symmetry. apply not_true_is_false. intros E. apply andb_true_iff in E.
      rewrite !isvector_isvec in E. auto. }
  destruct tr.
  - replace (negb (rows A =? cols B) || negb (cols A =? rows B)) with true by lia. reflexivity.
  - replace (negb (rows A =? rows B) || negb (cols A =? cols B)) with true by lia. reflexivity.
Qed.
Print Assumptions C12_mplus_size.

(* Missing: TRANS together with UPPER or LOWER, and a 1x1 matrix B; the claim
   is false for these. *)
Theorem C12_mplus_partial : forall T (K : num T) L m alpha A beta B flags,
  wf A -> allocated L A -> wf B -> allocated L B -> disjoint A B ->
  0 < rows A -> 0 < cols A -> ~ (isvec A /\ isvec B) ->
  let tr := has flags (ARMAS_TRANS + ARMAS_TRANSB) in
  let g := if has flags ARMAS_ABSA then abs K else fun x => x in
  let s := Z.land flags (ARMAS_LOWER + ARMAS_UPPER) in
  rows B = (if tr then cols A else rows A) -> cols B = (if tr then rows A else cols A) ->
  (s = ARMAS_LOWER \/ s = ARMAS_UPPER -> tr = false) ->
  exists m', armas_mplus K alpha A beta B flags L m = Some (0, m') /\
    (forall i j, pos A i j -> elt m' A i j =
       if (if s =? ARMAS_LOWER then j <=? i else if s =? ARMAS_UPPER then i <=? j else true)
       then add K (mul K alpha (g (elt m A i j))) (mul K beta (g (if tr then elt m B j i else elt m B i j)))
       else elt m A i j) /\
    only_changes A m m'.
Proof.
  intros T K L m alpha A beta B flags WA LA WB LB D Hr Hc HV tr g s ER EC HT.
  apply (mplus_spec K L m alpha A beta B flags
    (fun i j => if s =? ARMAS_LOWER then j <=? i else if s =? ARMAS_UPPER then i <=? j else true) tr g); auto.
  - intros E. split; [auto|]. fold s in E. rewrite E. reflexivity.
  - intros E. split; [auto|]. fold s in E. rewrite E. reflexivity.
  - fold s. intros E1 E2. replace (s =? ARMAS_LOWER) with false by lia.
    replace (s =? ARMAS_UPPER) with false by lia. reflexivity.
Qed.
Print Assumptions C12_mplus_partial.

(* two vectors of one length *)
Theorem C12_mplus_vectors : forall T (K : num T), is_ring K ->
  forall L m alpha A beta B flags,
  isvec A -> isvec B -> wf A -> wf B -> allocated L A -> allocated L B -> disjoint A B ->
  vlen A = vlen B -> 1 < vlen A ->
  exists m', armas_mplus K alpha A beta B flags L m = Some (0, m') /\
    (forall k, 0 <= k < vlen A ->
       velt m' A k = add K (mul K alpha (velt m A k)) (mul K beta (velt m B k))) /\
    only_changes A m m'.
Proof.
  intros T K HR L m alpha A beta B flags VA VB WA WB LA LB D El Hl.
  unfold armas_mplus. change (armas_size A) with (vlen A). change (armas_size B) with (vlen B).
  rewrite <- El. replace (vlen A =? 0) with false by lia. replace (vlen A =? 1) with false by lia. cbn [orb].
  apply isvector_isvec in VA as E1. apply isvector_isvec in VB as E2. rewrite E1, E2. cbn [andb].
  apply axpby_spec; auto.
Qed.
Print Assumptions C12_mplus_vectors.

(* A := alpha*A + beta*B^T on the lower part: B is not transposed (mplus.c:313-330) *)
Theorem C12_mplus_lower_trans_refuted : exists L m A B m',
  wf A /\ wf B /\ allocated L A /\ allocated L B /\ disjoint A B /\ rows A = cols B /\ cols A = rows B /\
  armas_mplus Znum 1 A 1 B (ARMAS_LOWER + ARMAS_TRANSB) L m = Some (0, m') /\
  elt m' A 1 0 <> 1 * elt m A 1 0 + 1 * elt m B 0 1.
Proof.
  exists cp_L, (fun a => a), (mkview 100 7 3 3), (mkview 1000 9 3 3).
  destruct (cp_ok 100 7 3 3 1000 9 3 3) as (H1 & H2 & H3 & H4 & H5); try lia.
  eexists. repeat (split; [first [assumption | reflexivity | vm_compute; reflexivity]|]).
  vm_compute. congruence.
Qed.
Print Assumptions C12_mplus_lower_trans_refuted.

(* 1x1 matrices: A := alpha*A + beta*B loses the factor alpha (mplus.c:299-301) *)
Theorem C12_mplus_scalar_refuted : exists L m A B m',
  wf A /\ wf B /\ allocated L A /\ allocated L B /\ disjoint A B /\
  rows A = 1 /\ cols A = 1 /\ rows B = 1 /\ cols B = 1 /\
  armas_mplus Znum 2 A 3 B 0 L m = Some (0, m') /\
  elt m' A 0 0 <> 2 * elt m A 0 0 + 3 * elt m B 0 0.
Proof.
  exists cp_L, (fun a => a), (mkview 100 7 1 1), (mkview 1000 9 1 1).
  destruct (cp_ok 100 7 1 1 1000 9 1 1) as (H1 & H2 & H3 & H4 & H5); try lia.
  eexists. repeat (split; [first [assumption | reflexivity | vm_compute; reflexivity]|]).
  vm_compute. congruence.
Qed.
Print Assumptions C12_mplus_scalar_refuted.

Example C12_nonvacuous :
  let A := mkview 100 7 5 6 in let B := mkview 1000 9 6 5 in
  wf A /\ allocated cp_L A /\ wf B /\ allocated cp_L B /\ disjoint A B /\ ~ (isvec A /\ isvec B) /\
  rows B = (if has ARMAS_TRANSB (ARMAS_TRANS + ARMAS_TRANSB) then cols A else rows A) /\
  cols B = (if has ARMAS_TRANSB (ARMAS_TRANS + ARMAS_TRANSB) then rows A else cols A) /\
  exists m', armas_mplus Znum 2 A 3 B ARMAS_TRANSB cp_L (fun a => a) = Some (0, m') /\
    elt m' A 4 5 = 2 * elt (fun a => a) A 4 5 + 3 * elt (fun a => a) B 5 4.
Proof.
  cbv zeta. destruct (cp_ok 100 7 5 6 1000 9 6 5) as (H1 & H2 & H3 & H4 & H5); try lia.
  repeat (split; [first [assumption | reflexivity | (intros ([X|X] & _); cbv in X; congruence)]|]).
  eexists. split; vm_compute; reflexivity.
Qed.

(* ---- C13 ---- *)

Theorem C13_set_values : forall T (K : num T) L m A value flags, wf A -> allocated L A ->
  Z.land flags SUL <> ARMAS_SYMM ->
  exists m', armas_set_values K A value flags L m = Some (0, m') /\
    (forall i j, pos A i j -> elt m' A i j = if selected SUL flags i j then value i j else elt m A i j) /\
    only_changes A m m'.
Proof.
  intros T K L m A value flags WA LA HS. unfold SUL in *.
  replace (ARMAS_SYMM + ARMAS_UPPER + ARMAS_LOWER) with (ARMAS_UPPER + ARMAS_LOWER + ARMAS_SYMM) in * by reflexivity.
  set (s := Z.land flags (ARMAS_UPPER + ARMAS_LOWER + ARMAS_SYMM)) in *.
  set (u := has flags ARMAS_UNIT).
  destruct (set_values_sel K L m A value flags u
    (fun i j => if s =? ARMAS_UPPER then if u then i <? j else i <=? j
                else if s =? ARMAS_LOWER then if u then j <? i else j <=? i else true)) as (m' & E & H & O); auto.
  - fold s. intros ->. reflexivity.
  - fold s. intros ->. reflexivity.
  - fold s. intros E1 E2. replace (s =? ARMAS_UPPER) with false by lia.
    replace (s =? ARMAS_LOWER) with false by lia. reflexivity.
  - exists m'. split; [auto|split; [|auto]]. intros i j Hp. rewrite H by auto.
    unfold selected. fold s. fold u.
    destruct (s =? ARMAS_UPPER); [|destruct (s =? ARMAS_LOWER); [|reflexivity]]; destruct u.
    + replace (i <? j) with (i + 1 <=? j) by lia. reflexivity.
    + rewrite Z.add_0_r. reflexivity.
    + replace (j <? i) with (j + 1 <=? i) by lia. reflexivity.
    + rewrite Z.add_0_r. reflexivity.
Qed.
Print Assumptions C13_set_values.

(* symmetric: the lower triangle is computed and mirrored, UNIT sets the diagonal to one *)
Theorem C13_set_values_symm : forall T (K : num T) L m A value flags, wf A -> allocated L A ->
  Z.land flags SUL = ARMAS_SYMM -> rows A = cols A ->
  exists m', armas_set_values K A value flags L m = Some (0, m') /\
    (forall i j, pos A i j -> elt m' A i j =
       if (i =? j) && has flags ARMAS_UNIT then one K else value (Z.max i j) (Z.min i j)) /\
    only_changes A m m'.
Proof.
  intros T K L m A value flags WA LA HS Hsq.
  destruct (set_values_symm K L m A value flags (has flags ARMAS_UNIT)) as (m' & E & H & O); auto.
  exists m'. split; [auto|split; [|auto]]. intros i j Hp. rewrite H by auto.
  destruct ((i =? j) && has flags ARMAS_UNIT); auto.
  destruct (j <=? i) eqn:El.
  - rewrite Z.max_l, Z.min_r by lia. reflexivity.
  - rewrite Z.max_r, Z.min_l by lia. reflexivity.
Qed.
Print Assumptions C13_set_values_symm.

(* Missing: UPPER with UNIT on wide matrices *)
Theorem C13_make_trm_partial : forall T (K : num T) L m A flags, wf A -> allocated L A ->
  let unit := has flags ARMAS_UNIT in let upper := has flags ARMAS_UPPER in
  upper = true \/ has flags ARMAS_LOWER = true ->
  (upper = true -> unit = true -> cols A <= rows A) ->
  exists m', armas_make_trm K A flags L m = Some (tt, m') /\
    (forall i j, pos A i j -> elt m' A i j =
       if (i =? j) && unit then one K
       else if (if upper then j <? i else i <? j) then zero K else elt m A i j) /\
    only_changes A m m'.
Proof.
  intros T K L m A flags WA LA unit upper H1 H2. apply make_trm_spec; auto.
  intros E. destruct H1; auto. unfold upper in *. congruence.
Qed.
Print Assumptions C13_make_trm_partial.

(* unit upper trapezium, 2x4 view of a larger matrix: a cell below the view changes (mset.c:178) *)
Theorem C13_make_trm_refuted : exists L m A m',
  wf A /\ allocated L A /\
  armas_make_trm Znum A (ARMAS_UPPER + ARMAS_UNIT) L m = Some (tt, m') /\ ~ only_changes A m m'.
Proof.
  exists cp_L, (fun a => a), (mkview 100 7 2 4).
  destruct (cp_ok 100 7 2 4 1000 9 3 3) as (H1 & _ & H3 & _); try lia.
  eexists. repeat (split; [first [assumption | vm_compute; reflexivity]|]).
  intros Ho. assert (N : ~ cell (mkview 100 7 2 4) 116).
  { intros (r & c & (P1 & P2) & Ea). cbn [rows cols elems step] in P1, P2, Ea. lia. }
  apply Ho in N. vm_compute in N. discriminate.
Qed.
Print Assumptions C13_make_trm_refuted.

(* Missing: UPPER on wide matrices.  armas_apply2 with the second argument p. *)
Theorem C13_apply_partial : forall T P L m A (oper : T -> P -> T) (p : P) flags, wf A -> allocated L A ->
  let s := Z.land flags (ARMAS_LOWER + ARMAS_UPPER) in
  (s = ARMAS_UPPER -> cols A <= rows A) ->
  exists m', armas_apply2 A oper p flags L m = Some (0, m') /\
    armas_apply A (fun x => oper x p) flags L m = Some (0, m') /\
    (forall i j, pos A i j -> elt m' A i j =
       if (if s =? ARMAS_LOWER then j <=? i else if s =? ARMAS_UPPER then i <=? j else true)
       then oper (elt m A i j) p else elt m A i j) /\
    only_changes A m m'.
Proof.
  intros T P L m A oper p flags WA LA s H1.
  destruct (apply_spec L m A (fun x => oper x p) flags
    (fun i j => if s =? ARMAS_LOWER then j <=? i else if s =? ARMAS_UPPER then i <=? j else true)) as (m' & E & H & O); auto.
  - fold s. intros E. split; [auto|]. rewrite E. reflexivity.
  - fold s. intros E. rewrite E. reflexivity.
  - fold s. intros E1 E2. replace (s =? ARMAS_LOWER) with false by lia.
    replace (s =? ARMAS_UPPER) with false by lia. reflexivity.
  - exists m'. auto.
Qed.
Print Assumptions C13_apply_partial.

(* 2x4 view: cells below the view are changed (mapply.c:58-63) *)
Theorem C13_apply_refuted : exists L m A m',
  wf A /\ allocated L A /\
  armas_apply A (fun x => x + 1) ARMAS_UPPER L m = Some (0, m') /\ ~ only_changes A m m'.
Proof.
  exists cp_L, (fun a => a), (mkview 100 7 2 4).
  destruct (cp_ok 100 7 2 4 1000 9 3 3) as (H1 & _ & H3 & _); try lia.
  eexists. repeat (split; [first [assumption | vm_compute; reflexivity]|]).
  intros Ho. assert (N : ~ cell (mkview 100 7 2 4) 116).
  { intros (r & c & (P1 & P2) & Ea). cbn [rows cols elems step] in P1, P2, Ea. lia. }
  apply Ho in N. vm_compute in N. discriminate.
Qed.
Print Assumptions C13_apply_refuted.

(* the generator is called once for each element, in column-major order *)
Theorem C13_set_all : forall T (K : num T) L m A (gen : Z -> T) flags, wf A -> allocated L A ->
  Z.land flags SUL <> ARMAS_UPPER -> Z.land flags SUL <> ARMAS_LOWER -> Z.land flags SUL <> ARMAS_SYMM ->
  exists m', armas_set_all K A gen flags L m = Some ((0, rows A * cols A), m') /\
    (forall i j, pos A i j -> elt m' A i j = gen (j * rows A + i)) /\ only_changes A m m'.
Proof. intros T K L m A gen flags. intros. apply set_all_spec; auto. Qed.
Print Assumptions C13_set_all.

Example C13_nonvacuous :
  wf cp_A /\ allocated cp_L cp_A /\ Z.land (ARMAS_UPPER + ARMAS_UNIT) SUL <> ARMAS_SYMM /\
  wf (mkview 100 7 4 4) /\ allocated cp_L (mkview 100 7 4 4) /\ Z.land ARMAS_SYMM SUL = ARMAS_SYMM /\
  has (ARMAS_UPPER + ARMAS_UNIT) ARMAS_UPPER = true /\ cols (mkview 100 7 4 4) <= rows (mkview 100 7 4 4) /\
  Z.land ARMAS_LOWER (ARMAS_LOWER + ARMAS_UPPER) <> ARMAS_UPPER /\
  Z.land 0 SUL <> ARMAS_UPPER /\ Z.land 0 SUL <> ARMAS_LOWER /\ Z.land 0 SUL <> ARMAS_SYMM.
Proof.
  destruct C06_nonvacuous as (A1 & _ & A2 & _).
  destruct (cp_ok 100 7 4 4 1000 9 5 6) as (H1 & _ & H2 & _); try lia.
  repeat (split; [assumption || reflexivity || (cbv; congruence)|]). cbv; congruence.
Qed.
