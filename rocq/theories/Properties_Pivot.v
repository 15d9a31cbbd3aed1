(* Properties_Pivot.v: C27 row and column pivots, C28 symmetric pivots. *)
From Coq Require Import ZArith Lia Bool ZifyBool.
From Verif Require Import Mem MView SpecView PView Hoare MFlags MCopy PUpd SpecPivot MPivot PPivot Properties_Copy.
Local Open Scope Z_scope.
Local Open Scope prog_scope.

(* the permutation P describes, on size rows or columns, in direction dir (0 forward, 1 backward) *)
Definition pivot_map (P : pivots) (dir size : Z) : Z -> Z :=
  if dir =? ARMAS_PIVOT_FORWARD then fwd size (indexes P) (Z.to_nat (npivots P))
  else bwd size (npivots P) (indexes P) (Z.to_nat (npivots P)).

Lemma ichg_bij : forall size n k f, 0 <= k < size -> bijective_on size f -> bijective_on size (fun i => f (ichg size n k i)).
Proof.
  intros size n k f Hk (F1 & F2). split.
  - intros i Hi. apply F1, ichg_range; auto.
  - intros i Hi. destruct (F2 i Hi) as (j & Hj & Ej). exists (ichg size n k j). split; [apply ichg_range; auto|].
    rewrite ichg_invol. auto.
Qed.

Lemma pivot_map_bij : forall P dir size, 0 <= npivots P <= size -> bijective_on size (pivot_map P dir size).
Proof.
  intros P dir size HP. unfold pivot_map. destruct (dir =? ARMAS_PIVOT_FORWARD).
  - assert (X : forall n, (n <= Z.to_nat size)%nat -> bijective_on size (fwd size (indexes P) n)).
    { induction n; intros Hn; cbn [fwd].
      - split; auto. intros i Hi; exists i; auto.
      - apply ichg_bij; [lia|apply IHn; lia]. }
    apply X. lia.
  - assert (X : forall n, (n <= Z.to_nat (npivots P))%nat -> bijective_on size (bwd size (npivots P) (indexes P) n)).
    { induction n; intros Hn; cbn [bwd].
      - split; auto. intros i Hi; exists i; auto.
      - apply ichg_bij; [lia|apply IHn; lia]. }
    apply X. lia.
Qed.

Lemma in_dec_cell : forall A a, wf A -> (exists i j, pos A i j /\ a = mad A (i, j)) \/ ~ cell A a.
Proof.
  intros A a (H1 & H2 & H3).
  destruct (Z_le_gt_dec (rows A) 0) as [Hr|Hr].
  { right. intros (i & j & Hp & _). unfold pos in Hp. lia. }
  set (j := (a - elems A) / step A). set (i := (a - elems A) mod step A).
  assert (E : a - elems A = step A * j + i) by (apply Z_div_mod_eq_full).
  assert (B : 0 <= i < step A) by (apply Z.mod_pos_bound; lia).
  destruct ((i <? rows A) && (0 <=? j) && (j <? cols A)) eqn:C.
  - left. exists i, j. split; [unfold pos; lia|]. unfold mad; cbn [fst snd]. lia.
  - right. intros (i' & j' & Hp & E'). unfold pos in Hp.
    assert (j' = j).
    { unfold j. replace (a - elems A) with (i' + j' * step A) by lia. rewrite Z.div_add by lia.
      rewrite Z.div_small by lia. lia. }
    subst j'. assert (i' = i) by lia. subst i'. lia.
Qed.

(* ---- C27 ---- *)

(* rows: flags = 0 is forward, flags = 1 backward.  The new row i is the row the composition of
   the interchanges names; every original row appears exactly once. *)
Theorem C27_pivot_rows : forall T L (m : Z -> T) A P dir, wf A -> allocated L A ->
  0 <= npivots P <= rows A -> (dir = ARMAS_PIVOT_FORWARD \/ dir = ARMAS_PIVOT_BACKWARD) ->
  exists m', armas_pivot_rows A P dir L m = Some (0, m') /\
    armas_pivot A P (ARMAS_PIVOT_ROWS + dir) L m = Some (0, m') /\
    (forall i j, pos A i j -> elt m' A i j = elt m A (pivot_map P dir (rows A) i) j) /\
    bijective_on (rows A) (pivot_map P dir (rows A)) /\
    only_changes A m m'.
Proof.
  intros T L m A P dir WA LA HP HD.
  assert (X : wp (apply_row_pivots A P dir) L m (fun _ m' =>
     (forall i j, pos A i j -> elt m' A i j = elt m A (pivot_map P dir (rows A) i) j) /\ only_changes A m m')).
  { apply apply_row_pivots_wp; auto. }
  destruct X as ([] & m' & E & H1 & H2). exists m'.
  split; [|split; [|split; [auto|split; [apply pivot_map_bij; lia|auto]]]].
  - unfold armas_pivot_rows. replace (rows A <? npivots P) with false by lia. rewrite !run_bind. rewrite E. reflexivity.
  - unfold armas_pivot.
    assert (E1 : Z.land (ARMAS_PIVOT_ROWS + dir) 1 = dir) by (destruct HD; subst; reflexivity). rewrite E1.
    replace (ARMAS_PIVOT_ROWS + dir - dir) with ARMAS_PIVOT_ROWS by lia.
    change (ARMAS_PIVOT_ROWS =? ARMAS_PIVOT_UPPER) with false. change (ARMAS_PIVOT_ROWS =? ARMAS_PIVOT_LOWER) with false.
    change (ARMAS_PIVOT_ROWS =? ARMAS_PIVOT_COLS) with false. cbv iota.
    replace (rows A <? npivots P) with false by lia. rewrite !run_bind. rewrite E. reflexivity.
Qed.
Print Assumptions C27_pivot_rows.

Theorem C27_pivot_cols : forall T L (m : Z -> T) A P dir, wf A -> allocated L A ->
  0 <= npivots P <= cols A -> (dir = ARMAS_PIVOT_FORWARD \/ dir = ARMAS_PIVOT_BACKWARD) ->
  exists m', armas_pivot_cols A P dir L m = Some (0, m') /\
    armas_pivot A P (ARMAS_PIVOT_COLS + dir) L m = Some (0, m') /\
    (forall i j, pos A i j -> elt m' A i j = elt m A i (pivot_map P dir (cols A) j)) /\
    bijective_on (cols A) (pivot_map P dir (cols A)) /\
    only_changes A m m'.
Proof.
  intros T L m A P dir WA LA HP HD.
  assert (X : wp (apply_col_pivots A P dir) L m (fun _ m' =>
     (forall i j, pos A i j -> elt m' A i j = elt m A i (pivot_map P dir (cols A) j)) /\ only_changes A m m')).
  { apply apply_col_pivots_wp; auto. }
  destruct X as ([] & m' & E & H1 & H2). exists m'.
  split; [|split; [|split; [auto|split; [apply pivot_map_bij; lia|auto]]]].
  - unfold armas_pivot_cols. replace (cols A <? npivots P) with false by lia. rewrite !run_bind. rewrite E. reflexivity.
  - unfold armas_pivot.
    assert (E1 : Z.land (ARMAS_PIVOT_COLS + dir) 1 = dir) by (destruct HD; subst; reflexivity). rewrite E1.
    replace (ARMAS_PIVOT_COLS + dir - dir) with ARMAS_PIVOT_COLS by lia.
    change (ARMAS_PIVOT_COLS =? ARMAS_PIVOT_UPPER) with false. change (ARMAS_PIVOT_COLS =? ARMAS_PIVOT_LOWER) with false.
    change (ARMAS_PIVOT_COLS =? ARMAS_PIVOT_COLS) with true. cbv iota.
    replace (cols A <? npivots P) with false by lia. rewrite !run_bind. rewrite E. reflexivity.
Qed.
Print Assumptions C27_pivot_cols.

(* more pivots than rows (columns): error, nothing changed *)
Theorem C27_too_many_pivots : forall T L (m : Z -> T) A P flags,
  (rows A < npivots P -> armas_pivot_rows A P flags L m = Some (-1, m)) /\
  (cols A < npivots P -> armas_pivot_cols A P flags L m = Some (-1, m)) /\
  (rows A < npivots P -> cols A < npivots P -> armas_pivot A P flags L m = Some (-1, m)).
Proof.
  intros T L m A P flags. unfold armas_pivot_rows, armas_pivot_cols, armas_pivot. split; [|split].
  - intros H. replace (rows A <? npivots P) with true by lia. reflexivity.
  - intros H. replace (cols A <? npivots P) with true by lia. reflexivity.
  - intros H H'. replace (rows A <? npivots P) with true by lia. replace (cols A <? npivots P) with true by lia.
    repeat match goal with |- context [if ?b then _ else _] => destruct b end; reflexivity.
Qed.
Print Assumptions C27_too_many_pivots.

(* Forward then backward restores every cell of the memory.  Missing: fewer pivots than rows,
   where it is false (C27_round_trip_refuted). *)
Theorem C27_round_trip_partial : forall T L (m : Z -> T) A P, wf A -> allocated L A ->
  (npivots P = rows A -> exists m1 m2, armas_pivot_rows A P ARMAS_PIVOT_FORWARD L m = Some (0, m1) /\
     armas_pivot_rows A P ARMAS_PIVOT_BACKWARD L m1 = Some (0, m2) /\ forall a, m2 a = m a) /\
  (npivots P = cols A -> exists m1 m2, armas_pivot_cols A P ARMAS_PIVOT_FORWARD L m = Some (0, m1) /\
     armas_pivot_cols A P ARMAS_PIVOT_BACKWARD L m1 = Some (0, m2) /\ forall a, m2 a = m a).
Proof.
  intros T L m A P WA LA. pose proof WA as (R0 & C0 & S0).
  assert (X : forall m2, (forall i j, pos A i j -> elt m2 A i j = elt m A i j) -> only_changes A m m2 -> forall a, m2 a = m a).
  { intros m2 H1 H2 a. destruct (in_dec_cell A a WA) as [(i & j & Hp & ->)|Hn]; [|apply H2; auto]. apply (H1 i j Hp). }
  split; intros HP.
  - destruct (C27_pivot_rows T L m A P 0) as (m1 & E1 & _ & F1 & _ & O1); auto; [lia|].
    destruct (C27_pivot_rows T L m1 A P 1) as (m2 & E2 & _ & F2 & (B2 & _) & O2); auto; [lia|].
    exists m1, m2. split; [auto|split; [auto|]]. apply X; [|eapply only_trans; eauto].
    intros i j Hp. rewrite F2 by auto. rewrite F1 by (unfold pos in *; split; [apply B2|]; lia).
    f_equal. unfold pivot_map. cbn [Z.eqb ARMAS_PIVOT_FORWARD]. rewrite HP. apply fwd_bwd_id; lia.
  - destruct (C27_pivot_cols T L m A P 0) as (m1 & E1 & _ & F1 & _ & O1); auto; [lia|].
    destruct (C27_pivot_cols T L m1 A P 1) as (m2 & E2 & _ & F2 & (B2 & _) & O2); auto; [lia|].
    exists m1, m2. split; [auto|split; [auto|]]. apply X; [|eapply only_trans; eauto].
    intros i j Hp. rewrite F2 by auto. rewrite F1 by (unfold pos in *; split; [|apply B2]; lia).
    f_equal. unfold pivot_map. cbn [Z.eqb ARMAS_PIVOT_FORWARD]. rewrite HP. apply fwd_bwd_id; lia.
Qed.
Print Assumptions C27_round_trip_partial.

(* three rows, one pivot: backward starts from the last row, forward from the first (pivot.c:185-191) *)
Theorem C27_round_trip_refuted : exists L (m : Z -> Z) A P m1 m2, wf A /\ allocated L A /\ 0 <= npivots P <= rows A /\
  (forall k, 0 <= k < npivots P -> 1 <= indexes P k <= rows A) /\
  armas_pivot_rows A P ARMAS_PIVOT_FORWARD L m = Some (0, m1) /\
  armas_pivot_rows A P ARMAS_PIVOT_BACKWARD L m1 = Some (0, m2) /\ elt m2 A 0 0 <> elt m A 0 0.
Proof.
  exists cp_L, (fun a => a), (mkview 100 7 3 2), (mkpiv 1 (fun _ => 2)).
  destruct (cp_ok 100 7 3 2 1000 9 3 3) as (H1 & _ & H3 & _); try lia.
  eexists. eexists. split; [auto|]. split; [auto|]. split; [cbn; lia|]. split; [cbn; lia|].
  split; [vm_compute; reflexivity|]. split; [vm_compute; reflexivity|]. vm_compute. discriminate.
Qed.
Print Assumptions C27_round_trip_refuted.

(* armas_pivot_rows tests all flag bits, so ROWS+FORWARD pivots backward (pivot.c:177, 239) *)
Theorem C27_pivot_rows_flags_refuted : exists L (m : Z -> Z) A P m1 m2, wf A /\ allocated L A /\ npivots P = rows A /\
  Z.land (ARMAS_PIVOT_ROWS + ARMAS_PIVOT_FORWARD) 1 = ARMAS_PIVOT_FORWARD /\
  armas_pivot_rows A P (ARMAS_PIVOT_ROWS + ARMAS_PIVOT_FORWARD) L m = Some (0, m1) /\
  armas_pivot_rows A P ARMAS_PIVOT_FORWARD L m = Some (0, m2) /\ elt m2 A 0 0 <> elt m1 A 0 0.
Proof.
  exists cp_L, (fun a => a), (mkview 100 7 3 2), (mkpiv 3 (fun k => if k =? 0 then 2 else 3)).
  destruct (cp_ok 100 7 3 2 1000 9 3 3) as (H1 & _ & H3 & _); try lia.
  eexists. eexists. split; [auto|]. split; [auto|]. split; [reflexivity|]. split; [reflexivity|].
  split; [vm_compute; reflexivity|]. split; [vm_compute; reflexivity|]. vm_compute. discriminate.
Qed.
Print Assumptions C27_pivot_rows_flags_refuted.

Example C27_nonvacuous : wf cp_A /\ allocated cp_L cp_A /\ 
  let P := mkpiv 4 (fun k => if k =? 0 then 3 else if k =? 1 then 5 else if k =? 2 then 0 else 4) in
  0 <= npivots P <= rows cp_A /\ 0 <= npivots P <= cols cp_A /\
  pivot_map P 0 5 0 = 2 /\ pivot_map P 0 5 1 = 4 /\ pivot_map P 0 5 2 = 0 /\ pivot_map P 0 5 4 = 1 /\
  npivots (mkpiv 5 (indexes P)) = rows cp_A.
Proof.
  destruct C06_nonvacuous as (A1 & _ & A2 & _). split; [auto|split; [auto|]].
  cbn [npivots]. repeat (split; [first [reflexivity | cbn; lia]|]). reflexivity.
Qed.

(* ---- C28 ---- *)

(* element (i,j) of the symmetric matrix stored in one triangle of A *)
Definition selt {T} (low : bool) (m : Z -> T) (A : view) (i j : Z) : T :=
  if low then elt m A (Z.max i j) (Z.min i j) else elt m A (Z.min i j) (Z.max i j).

(* The symmetric matrix S stored in one triangle becomes S'(i,j) = S(pi i, pi j), the stored
   triangle of P*S*P^T; the elements of the other triangle keep their values. *)
Theorem C28_symmetric_pivot : forall T L (m : Z -> T) A P (low : bool) dir, wf A -> allocated L A ->
  rows A = cols A -> 0 <= npivots P <= rows A ->
  (forall k, 0 <= k < npivots P -> 1 <= indexes P k <= rows A) ->
  (dir = ARMAS_PIVOT_FORWARD \/ dir = ARMAS_PIVOT_BACKWARD) ->
  exists m', armas_pivot A P ((if low then ARMAS_PIVOT_LOWER else ARMAS_PIVOT_UPPER) + dir) L m = Some (0, m') /\
    (forall i j, pos A i j -> selt low m' A i j =
        selt low m A (pivot_map P dir (rows A) i) (pivot_map P dir (rows A) j)) /\
    (forall i j, pos A i j -> (if low then i < j else j < i) -> elt m' A i j = elt m A i j) /\
    bijective_on (rows A) (pivot_map P dir (rows A)) /\
    only_changes A m m'.
Proof.
  intros T L m A P low dir WA LA Sq HP HI HD.
  assert (X : exists m', armas_pivot A P ((if low then ARMAS_PIVOT_LOWER else ARMAS_PIVOT_UPPER) + dir) L m = Some (0, m') /\
     moved A (symm_map low (pivot_map P dir (rows A))) m m').
  { unfold armas_pivot. set (fl := if low then ARMAS_PIVOT_LOWER else ARMAS_PIVOT_UPPER).
    assert (E1 : Z.land (fl + dir) 1 = dir) by (unfold fl; destruct low, HD; subst; reflexivity). rewrite E1.
    replace (fl + dir - dir) with fl by lia. cbv zeta.
    replace (rows A <? npivots P) with false by lia.
    destruct HD; subst dir; cbn [Z.eqb ARMAS_PIVOT_FORWARD ARMAS_PIVOT_BACKWARD].
    - assert (Y : wp (for_up 0 (npivots P) 1 (fun k =>
          let kp := armas_pivot_get P k in
          when (negb (kp - 1 =? k)) (symm_apply low A k (kp - 1)))) L m (fun _ m' =>
          moved A (symm_map low (pivot_map P 0 (rows A))) m m')) by (apply symm_fwd_wp; auto).
      destruct Y as ([] & m' & E & H). exists m'. split; [|exact H].
      destruct low; unfold fl; cbn [Z.eqb ARMAS_PIVOT_UPPER ARMAS_PIVOT_LOWER Pos.eqb]; rewrite !run_bind;
        cbn [symm_apply] in E; cbv zeta in E; rewrite E; reflexivity.
    - assert (Y : wp (for_down (npivots P - 1) 0 (fun k =>
          let nk := rows A - 1 - (npivots P - 1 - k) in
          let kp := armas_pivot_get P k in
          when (negb (kp - 1 =? nk)) (symm_apply low A (kp - 1) nk))) L m (fun _ m' =>
          moved A (symm_map low (pivot_map P 1 (rows A))) m m')) by (apply symm_bwd_wp; auto).
      destruct Y as ([] & m' & E & H). exists m'. split; [|exact H].
      destruct low; unfold fl; cbn [Z.eqb ARMAS_PIVOT_UPPER ARMAS_PIVOT_LOWER Pos.eqb]; rewrite !run_bind;
        cbn [symm_apply] in E; cbv zeta in E; rewrite E; reflexivity. }
  destruct X as (m' & E & H & O). exists m'. split; [auto|].
  split; [|split; [|split; [apply pivot_map_bij; auto|auto]]].
  - intros i j Hp. unfold selt. unfold pos in Hp.
    destruct low; (rewrite H by (unfold pos; lia)); unfold symm_map, low_map, up_map, lowpos, uppos;
    (replace (Z.min i j <=? Z.max i j) with true by lia); cbn [fst snd];
    (destruct (Z.max_spec i j) as [(Hc & ->)|(Hc & ->)]); (destruct (Z.min_spec i j) as [(Hc' & ->)|(Hc' & ->)]); try lia;
    rewrite (Z.max_comm (pivot_map _ _ _ i)), (Z.min_comm (pivot_map _ _ _ i)); reflexivity.
  - intros i j Hp Hij. rewrite H by auto. destruct low; unfold symm_map, low_map, up_map.
    + replace (j <=? i) with false by lia. reflexivity.
    + replace (i <=? j) with false by lia. reflexivity.
Qed.
Print Assumptions C28_symmetric_pivot.

Example C28_nonvacuous : 
  let A := mkview 100 7 5 5 in
  let P := mkpiv 4 (fun k => if k =? 0 then 3 else if k =? 1 then 5 else 4) in
  wf A /\ allocated cp_L A /\ rows A = cols A /\ 0 <= npivots P <= rows A /\
  (forall k, 0 <= k < npivots P -> 1 <= indexes P k <= rows A) /\
  pivot_map P 0 5 0 = 2 /\ pivot_map P 0 5 1 = 4 /\ pivot_map P 0 5 2 = 3 /\ pivot_map P 0 5 3 = 0.
Proof.
  destruct (cp_ok 100 7 5 5 1000 9 3 3) as (H1 & _ & H3 & _); try lia. cbv zeta.
  split; [auto|split; [auto|]]. split; [reflexivity|]. split; [cbn; lia|]. split.
  { intros k Hk. cbn [indexes npivots rows] in *. destruct (k =? 0), (k =? 1); lia. }
  repeat split; reflexivity.
Qed.
