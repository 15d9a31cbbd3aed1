(* Properties_SpDiag.v: property C43, diagonals of sparse matrices. *)
From Coq Require Import ZArith Lia List Bool Ring Sorting.Permutation.
From Verif Require Import Mem MView MNum MFlags MSparse MSpVec SpecView SpecNum SpecSparse SpecSpVec
  Hoare PSum PFrame PSparse PSpconv PSpVec PSpTrm PSpDiag Inst Properties_SpVec.
Import ListNotations.
Local Open Scope Z_scope.
Ltac lia := Lia.lia.

(* only the element values differ *)
Definition same_structure {T} (A A' : sparse T) : Prop := exists v, A' = sp_with_v A v /\ alen v = alen (sp_v A).

Lemma same_structure_ok : forall T (A A' : sparse T), same_structure A A' ->
  (valid A -> valid A') /\ map fst (entries A') = map fst (entries A) /\ sp_kind A' = sp_kind A /\ sp_rows A' = sp_rows A /\ sp_cols A' = sp_cols A.
Proof.
  intros T A A' (v & -> & Hv). split; [|split; [|auto]].
  - unfold valid. cbn. rewrite Hv. unfold nlines, linelen. cbn. auto.
  - unfold entries, line_of. cbn. destruct (sp_kind A); try reflexivity;
      rewrite !flat_map_concat_map, !concat_map, !map_map; f_equal; apply map_ext; intro j; rewrite !map_map; apply map_ext; reflexivity.
Qed.

Section Rg.
  Context {T : Type} (K : num T).
  Hypothesis HR : is_ring K.
  Let HR' : ring_theory (zero K) (one K) (add K) (mul K) (sub K) (opp K) eq := HR.
  Add Ring KringPD : HR'.
  Lemma rg_zero : forall c, mul K c (zero K) = zero K.
  Proof. intros. ring. Qed.
  Lemma rg_comm : forall a b, mul K a b = mul K b a.
  Proof. intros. ring. Qed.
End Rg.

(* ------------------------------------------------------------------ mult_diag *)

Theorem C43_mult_diag : forall T (K : num T), is_ring K -> forall L m (A : sparse T) x alpha flags,
  valid A -> sp_kind A <> COO -> contiguous x -> allocated L x ->
  let right := has flags ARMAS_RIGHT && negb (has flags ARMAS_LEFT) in
  vlen x = (if right then sp_cols A else sp_rows A) ->
  exists A', armassp_mult_diag K A alpha x flags L m = Some ((0, A'), m) /\ same_structure A A' /\
    forall i j, 0 <= i < sp_rows A -> 0 <= j < sp_cols A ->
      value K A' i j = mul K (value K A i j) (mul K alpha (velt m x (if right then j else i))).
Proof.
  intros T K HR L m A x alpha flags V Hk Cx Ax right Nx.
  pose proof (valid_linesr A V Hk) as HL. pose proof (reg_alloc L x Cx Ax) as Rx.
  assert (Eright : (Z.land flags (Z.lor ARMAS_LEFT ARMAS_RIGHT) =? ARMAS_RIGHT) = right).
  { unfold right. rewrite land_or. change ARMAS_RIGHT with (2 ^ 6). change ARMAS_LEFT with (2 ^ 5). rewrite !has_bit, !land_bit by lia.
    destruct (Z.testbit flags 6), (Z.testbit flags 5); reflexivity. }
  assert (X : wp (armassp_mult_diag K A alpha x flags) L m (fun r m' => m' = m /\ fst r = 0 /\ exists v, snd r = sp_with_v A v /\ alen v = alen (sp_v A) /\
    forall l p, 0 <= l < nlines A -> P A l <= p < P A (l + 1) -> aget v p = mul K (aget (sp_v A) p) (mul K alpha (m (elems x + (if Bool.eqb right (kind_eqb (sp_kind A) CSC) then l else aget (sp_ix A) p)))))).
  { unfold armassp_mult_diag. rewrite Eright. clearbody right. unfold nlines, linelen in *.
    destruct (sp_kind A) eqn:EK; try congruence; cbn [kind_eqb]; wbind.
    - eapply wp_conseq; [apply (diag_lines_wp K L A _ _ HL); destruct right; cbn [Bool.eqb]; rewrite <- Nx; exact Rx|].
      intros A' m' (-> & v & -> & H1 & H2). apply wp_ret. split; [auto|]. split; [auto|]. exists v. auto.
    - eapply wp_conseq; [apply (diag_lines_wp K L A _ _ HL); destruct right; cbn [Bool.eqb]; rewrite <- Nx; exact Rx|].
      intros A' m' (-> & v & -> & H1 & H2). apply wp_ret. split; [auto|]. split; [auto|]. exists v. auto. }
  destruct X as ([r A'] & m' & R & -> & E & v & EA & Hv & H). cbn [fst snd] in *. subst r A'. exists (sp_with_v A v). split; [exact R|].
  assert (SS : same_structure A (sp_with_v A v)) by (exists v; auto). split; [exact SS|].
  intros i j Hi Hj. rewrite (value_lines K HR (sp_with_v A v) i j) by (auto; apply (same_structure_ok T A); auto). rewrite (value_lines K HR A i j) by auto.
  cbn [sp_with_v sp_kind].
  assert (X : forall l c, 0 <= l < nlines A -> lval K (sp_with_v A v) l c = mul K (lval K A l c) (mul K alpha (m (elems x + (if Bool.eqb right (kind_eqb (sp_kind A) CSC) then l else c))))).
  { intros l c Hl. unfold lval. cbn [sp_with_v sp_ptr sp_ix sp_v]. rewrite (Rmul_comm HR). rewrite <- (psum_mul_l K HR). apply psum_ext. intros p Hp.
    destruct (Z.eqb_spec (aget (sp_ix A) p) c) as [E|E]; [|symmetry; apply (rg_zero K HR)]. rewrite (H l p Hl Hp), E. apply (rg_comm K HR). }
  unfold nlines in X. rewrite contig_velt by (auto; rewrite Nx; destruct right; auto).
  destruct (sp_kind A) eqn:EK; try congruence; rewrite X by auto; destruct right; reflexivity.
Qed.
Print Assumptions C43_mult_diag.

Lemma stored_in_line : forall T (A : sparse T) i j, valid A -> sp_kind A <> COO -> 0 <= i < sp_rows A -> 0 <= j < sp_cols A ->
  stored A i j <-> match sp_kind A with CSR => in_line A i j | _ => in_line A j i end.
Proof.
  intros T A i j V Hk Hi Hj. split.
  - intro S. pose proof (stored_line T A i j V Hk S) as Y. cbn zeta in Y. unfold in_line, P. destruct (sp_kind A); auto.
  - pose proof V as (_ & _ & _ & V''). unfold nlines in V''. unfold stored, entries, in_line, P.
    destruct (sp_kind A) eqn:EK; try congruence; destruct V'' as (Enp & _); intros (p & Hp & Ep);
      apply in_map_iff; exists (i, j, aget (sp_v A) p); (split; [reflexivity|]); apply in_flat_map;
      [exists j|exists i]; (split; [apply zr_in; lia|]); apply in_map_iff; [exists (i, aget (sp_v A) p)|exists (j, aget (sp_v A) p)]; (split; [reflexivity|]);
      unfold line_of; apply in_map_iff; exists p; rewrite Ep; split; auto; apply zr_in; lia.
Qed.

(* ------------------------------------------------------------------ add_diag *)

(* for sorted lines that all hold an element on or after the diagonal: mu is
   added exactly to the stored diagonal elements *)
Theorem C43_add_diag_partial : forall T (K : num T), is_ring K -> forall L m (A : sparse T) mu,
  valid A -> sp_kind A <> COO -> strictly_ascending A ->
  (forall l, 0 <= l < nlines A -> exists p, aget (sp_ptr A) l <= p < aget (sp_ptr A) (l + 1) /\ l <= aget (sp_ix A) p) ->
  exists A', armassp_add_diag K A mu L m = Some ((0, A'), m) /\ same_structure A A' /\
    (forall i j, 0 <= i < sp_rows A -> 0 <= j < sp_cols A -> i <> j -> value K A' i j = value K A i j) /\
    (forall i, 0 <= i < sp_rows A -> i < sp_cols A -> stored A i i -> value K A' i i = add K (value K A i i) mu) /\
    (forall i, 0 <= i < sp_rows A -> i < sp_cols A -> ~ stored A i i -> value K A' i i = value K A i i).
Proof.
  intros T K HR L m A mu V Hk SA HG.
  pose proof (valid_linesr A V Hk) as HL.
  assert (HG' : forall j, 0 <= j < nlines A -> exists g, first_from A j j g).
  { intros j Hj. destruct (HG j Hj) as (p & Hp & Hi). eapply first_ex; eauto. }
  assert (X : wp (armassp_add_diag K A mu) L m (fun r m' => m' = m /\ fst r = 0 /\ exists v, snd r = sp_with_v A v /\ alen v = alen (sp_v A) /\
    forall l p, 0 <= l < nlines A -> P A l <= p < P A (l + 1) -> aget v p = if aget (sp_ix A) p =? l then add K (aget (sp_v A) p) mu else aget (sp_v A) p)).
  { unfold armassp_add_diag. unfold strictly_ascending in SA. unfold nlines, linelen in *.
    destruct (sp_kind A) eqn:EK; try congruence; cbn [kind_eqb]; wbind.
    - eapply wp_conseq; [apply (add_lines_wp K L A _ _ HL); auto|].
      intros v m' (-> & H1 & H2). apply wp_ret. split; [auto|]. split; [auto|]. exists v. auto.
    - eapply wp_conseq; [apply (add_lines_wp K L A _ _ HL); auto|].
      intros v m' (-> & H1 & H2). apply wp_ret. split; [auto|]. split; [auto|]. exists v. auto. }
  destruct X as ([r A'] & m' & R & -> & E & v & EA & Hv & H). cbn [fst snd] in *. subst r A'. exists (sp_with_v A v). split; [exact R|].
  assert (SS : same_structure A (sp_with_v A v)) by (exists v; auto). split; [exact SS|].
  assert (V' : valid (sp_with_v A v)) by (apply (same_structure_ok T A); auto).
  assert (X0 : forall l c, 0 <= l < nlines A -> l <> c -> lval K (sp_with_v A v) l c = lval K A l c).
  { intros l c Hl Hne. unfold lval. cbn [sp_with_v sp_ptr sp_ix sp_v]. apply psum_ext. intros p Hp.
    destruct (Z.eqb_spec (aget (sp_ix A) p) c) as [E|E]; [|reflexivity]. rewrite (H l p Hl Hp). replace (aget (sp_ix A) p =? l) with false by lia. reflexivity. }
  assert (X1 : forall l, 0 <= l < nlines A -> (exists p, P A l <= p < P A (l + 1) /\ aget (sp_ix A) p = l) -> lval K (sp_with_v A v) l l = add K (lval K A l l) mu).
  { intros l Hl (p & Hp & Ep). unfold lval. cbn [sp_with_v sp_ptr sp_ix sp_v].
    assert (Hu : forall q, P A l <= q < P A (l + 1) -> q <> p -> aget (sp_ix A) q <> l).
    { intros q Hq Hne. destruct (Z_lt_dec q p).
      - pose proof (SA l q p Hl ltac:(unfold P in *; lia) ltac:(lia) ltac:(unfold P in *; lia)). lia.
      - pose proof (SA l p q Hl ltac:(unfold P in *; lia) ltac:(lia) ltac:(unfold P in *; lia)). lia. }
    rewrite (psum_one K HR _ _ p) by (auto; intros q Hq Hne; specialize (Hu q Hq Hne); replace (aget (sp_ix A) q =? l) with false by lia; reflexivity).
    rewrite (psum_one K HR _ _ p) by (auto; intros q Hq Hne; specialize (Hu q Hq Hne); replace (aget (sp_ix A) q =? l) with false by lia; reflexivity).
    rewrite (H l p Hl Hp), Ep, Z.eqb_refl. reflexivity. }
  assert (X2 : forall l, 0 <= l < nlines A -> (forall p, P A l <= p < P A (l + 1) -> aget (sp_ix A) p <> l) -> lval K (sp_with_v A v) l l = lval K A l l).
  { intros l Hl Hn. unfold lval. cbn [sp_with_v sp_ptr sp_ix sp_v]. apply psum_ext. intros p Hp. specialize (Hn p Hp). replace (aget (sp_ix A) p =? l) with false by lia. reflexivity. }
  assert (ST : forall l, 0 <= l < sp_rows A -> l < sp_cols A -> stored A l l <-> exists p, P A l <= p < P A (l + 1) /\ aget (sp_ix A) p = l).
  { intros l Hl Hl'. split.
    - intro S. apply stored_in_line in S; auto; try lia. unfold in_line in S. destruct (sp_kind A); exact S.
    - intro H0. apply stored_in_line; auto; try lia. destruct (sp_kind A); exact H0. }
  assert (NL : forall l, 0 <= l < sp_rows A -> l < sp_cols A -> 0 <= l < nlines A) by (intros l H1 H2; unfold nlines; destruct (sp_kind A); lia).
  split; [|split].
  - intros i j Hi Hj Hne. rewrite (value_lines K HR (sp_with_v A v) i j), (value_lines K HR A i j) by auto. cbn [sp_with_v sp_kind].
    unfold nlines in X0. destruct (sp_kind A); try congruence; apply X0; auto.
  - intros i Hi Hi' S. rewrite (value_lines K HR (sp_with_v A v) i i), (value_lines K HR A i i) by first [exact V'|exact V|exact Hk|cbn; lia]. cbn [sp_with_v sp_kind].
    apply ST in S; auto. destruct (sp_kind A); try congruence; apply X1; auto.
  - intros i Hi Hi' S. rewrite (value_lines K HR (sp_with_v A v) i i), (value_lines K HR A i i) by first [exact V'|exact V|exact Hk|cbn; lia]. cbn [sp_with_v sp_kind].
    assert (S' : forall p, P A i <= p < P A (i + 1) -> aget (sp_ix A) p <> i) by (intros p Hp E; apply S, ST; eauto).
    destruct (sp_kind A); try congruence; apply X2; auto.
Qed.
Print Assumptions C43_add_diag_partial.

Theorem C43_coordinate_list : forall T (K : num T) L m (A : sparse T) x alpha mu flags, sp_kind A = COO ->
  armassp_mult_diag K A alpha x flags L m = Some ((-1, A), m) /\ armassp_add_diag K A mu L m = Some ((-1, A), m).
Proof. intros T K L m A x alpha mu flags E. unfold armassp_mult_diag, armassp_add_diag. rewrite E. split; reflexivity. Qed.
Print Assumptions C43_coordinate_list.

(* [2 5; 0 3] by rows *)
Example C43_nonvacuous :
  valid (sv_sq CSR) /\ strictly_ascending (sv_sq CSR) /\
  (forall l, 0 <= l < nlines (sv_sq CSR) -> exists p, aget (sp_ptr (sv_sq CSR)) l <= p < aget (sp_ptr (sv_sq CSR)) (l + 1) /\ l <= aget (sp_ix (sv_sq CSR)) p) /\
  (exists A', armassp_add_diag Znum (sv_sq CSR) 10 sv_L sv_m = Some ((0, A'), sv_m) /\ value Znum A' 0 0 = 12 /\ value Znum A' 1 1 = 13 /\ value Znum A' 0 1 = 5) /\
  (exists A', armassp_mult_diag Znum (sv_sq CSR) 2 (sv_x 2) ARMAS_RIGHT sv_L sv_m = Some ((0, A'), sv_m) /\ value Znum A' 0 1 = 5 * (2 * 22)) /\
  (exists A', armassp_mult_diag Znum (sv_sq CSR) 2 (sv_x 2) ARMAS_LEFT sv_L sv_m = Some ((0, A'), sv_m) /\ value Znum A' 0 1 = 5 * (2 * 21)).
Proof.
  pose proof (sv_sq_ok CSR ltac:(discriminate)) as (H1 & H2 & H3). do 2 (split; [assumption|]).
  split. { intros l Hl. assert (H : l = 0 \/ l = 1) by (cbn in Hl; lia). destruct H as [->| ->]; [exists 0|exists 2]; cbn; lia. }
  split; [|split]; (eexists; split; [vm_compute; reflexivity|repeat split; vm_compute; reflexivity]).
Qed.

(* a row without an element on or after the diagonal: the search goes on into
   the next row and finds an element there; [. . ; . 3; 7 . .] stored by rows with
   row 0 empty, row 1 = (0, 4), row 2 = (1, 5): the element (2, 1) has column 1 *)
Definition sv_gap : sparse Z :=
  mksparse (mkarr 3 (fun p => if p =? 0 then 4 else if p =? 1 then 5 else 6)) (noarr (coo0 Znum)) 3 3 3
    (mkarr 4 (fun j => if j =? 0 then 0 else if j =? 1 then 0 else if j =? 2 then 1 else 3)) (mkarr 3 (fun p => if p =? 0 then 0 else p)) 3 3 CSR 64.
Theorem C43_add_diag_refuted : exists A', valid sv_gap /\ strictly_ascending sv_gap /\ ~ stored sv_gap 1 1 /\
  armassp_add_diag Znum sv_gap 10 sv_L sv_m = Some ((0, A'), sv_m) /\ value Znum A' 2 1 = value Znum sv_gap 2 1 + 10.
Proof.
  eexists. split; [unfold valid; cbn; repeat split; try lia; sv_cases|].
  split; [unfold strictly_ascending; cbn; intros j p q; sv_cases|].
  split. { vm_compute. intros [H|[H|[H|H]]]; try discriminate. contradiction. }
  split; [vm_compute; reflexivity|]. vm_compute. reflexivity.
Qed.
Print Assumptions C43_add_diag_refuted.

(* the same in the last row reads after the end of the index array *)
Theorem C43_add_diag_overread_refuted : valid sv_nodiag /\ strictly_ascending sv_nodiag /\ armassp_add_diag Znum sv_nodiag 10 sv_L sv_m = None.
Proof.
  split; [unfold valid; cbn; repeat split; try lia; sv_cases|].
  split; [unfold strictly_ascending; cbn; intros j p q; sv_cases|]. vm_compute. reflexivity.
Qed.
Print Assumptions C43_add_diag_overread_refuted.

(* ------------------------------------------------------------------ hasdiag *)

(* the diagonal number diag is stored completely *)
Definition has_diagonal {T} (A : sparse T) (diag : Z) : Prop :=
  sp_rows A = sp_cols A /\ Z.abs diag <= sp_rows A /\
  forall i j, 0 <= i < sp_rows A -> 0 <= j < sp_cols A -> j - i = diag -> stored A i j.

(* correct for diagonals above the main one in column format and below it in row format *)
Theorem C43_hasdiag_partial : forall T L (m : Z -> T) (A : sparse T) diag, valid A ->
  (sp_kind A = CSC /\ 0 <= diag) \/ (sp_kind A = CSR /\ diag <= 0) ->
  exists b, armassp_hasdiag A diag L m = Some (b, m) /\ (b = true <-> has_diagonal A diag).
Proof.
  intros T L m A diag V HK. assert (Hk : sp_kind A <> COO) by (destruct HK as [[-> _]|[-> _]]; discriminate).
  pose proof (valid_linesr A V Hk) as HL. pose proof V as (V1 & V2 & _).
  assert (X : wp (armassp_hasdiag A diag) L m (fun b m' => m' = m /\ (b = true <-> has_diagonal A diag))).
  { unfold armassp_hasdiag, has_diagonal. destruct (Z.eqb_spec (sp_rows A) (sp_cols A)) as [Hsq|Hsq]; cbn [negb].
    2:{ apply wp_ret. split; [auto|]. split; [discriminate|tauto]. }
    destruct ((diag <? 0) && (sp_rows A <? - diag)) eqn:E1.
    { apply wp_ret. split; [auto|]. split; [discriminate|]. intros (_ & H & _). lia. }
    destruct ((0 <? diag) && (sp_cols A <? diag)) eqn:E2.
    { apply wp_ret. split; [auto|]. split; [discriminate|]. intros (_ & H & _). lia. }
    pose proof (stored_in_line T A) as SL. unfold nlines, linelen in *.
    destruct HK as [[EK Hd]|[EK Hd]]; rewrite EK in *; wbind.
    - replace (if 0 <? diag then diag else 0) with diag by (destruct (Z.ltb_spec 0 diag); lia). replace (diag <? 0) with false by lia.
      eapply (count_wp L A _ _ HL); try lia. intros nc Hnc. apply wp_ret. split; [auto|]. rewrite Z.eqb_eq, Hnc. split.
      + intro H. split; [auto|]. split; [lia|]. intros i j Hi Hj Hij. apply SL; [exact V|discriminate|lia|lia|]. replace i with (j - diag) by lia. apply H. lia.
      + intros (_ & _ & H) j Hj. specialize (H (j - diag) j ltac:(lia) ltac:(lia) ltac:(lia)). apply SL in H; [exact H|exact V|discriminate|lia|lia].
    - replace (if diag <? 0 then - diag else 0) with (- diag) by (destruct (Z.ltb_spec diag 0); lia). replace (0 <? diag) with false by lia.
      eapply (count_wp L A _ _ HL); try lia. intros nc Hnc. apply wp_ret. split; [auto|]. rewrite Z.eqb_eq, Hnc. split.
      + intro H. split; [auto|]. split; [lia|]. intros i j Hi Hj Hij. apply SL; [exact V|discriminate|lia|lia|]. replace j with (i - - diag) by lia. apply H. lia.
      + intros (_ & _ & H) j Hj. specialize (H j (j - - diag) ltac:(lia) ltac:(lia) ltac:(lia)). apply SL in H; [exact H|exact V|discriminate|lia|lia]. }
  destruct X as (b & m' & R & -> & H). exists b. auto.
Qed.
Print Assumptions C43_hasdiag_partial.

(* column format, a diagonal below the main one: columns that do not exist are visited *)
Theorem C43_hasdiag_csc_refuted : valid (sv_sq CSC) /\ armassp_hasdiag (sv_sq CSC) (-1) sv_L sv_m = None.
Proof. split; [apply sv_sq_ok; discriminate|]. vm_compute. reflexivity. Qed.
Print Assumptions C43_hasdiag_csc_refuted.

(* row format, a diagonal above the main one: the main diagonal is looked at *)
Theorem C43_hasdiag_csr_refuted : valid (sp_with_shape (sv_gap) 3 3 CSR) /\ valid (sv_sq CSR) /\
  (exists A : sparse Z, valid A /\ sp_kind A = CSR /\ armassp_hasdiag A 1 sv_L sv_m = Some (true, sv_m) /\ ~ has_diagonal A 1).
Proof.
  split; [unfold valid; cbn; repeat split; try lia; sv_cases|]. split; [apply sv_sq_ok; discriminate|].
  exists (mksparse (mkarr 2 (fun p => 1)) (noarr (coo0 Znum)) 2 2 2 (mkarr 3 (fun j => j)) (mkarr 2 (fun p => p)) 2 2 CSR 64).
  split; [unfold valid; cbn; repeat split; try lia; sv_cases|]. split; [reflexivity|]. split; [vm_compute; reflexivity|].
  intros (_ & _ & H). specialize (H 0 1 ltac:(cbn; lia) ltac:(cbn; lia) ltac:(lia)). vm_compute in H. destruct H as [H|[H|H]]; try discriminate. contradiction.
Qed.
Print Assumptions C43_hasdiag_csr_refuted.

(* coordinate list: a position stored twice is counted twice *)
Theorem C43_hasdiag_coo_refuted : exists A : sparse Z, valid A /\ sp_kind A = COO /\
  armassp_hasdiag A 0 sv_L sv_m = Some (true, sv_m) /\ ~ has_diagonal A 0.
Proof.
  exists (mksparse (noarr 0) (mkarr 2 (fun p => mkcoo 1 0 0)) 2 2 2 (noarr 0) (noarr 0) 0 2 COO 64).
  split; [unfold valid; cbn; repeat split; try lia; sv_cases|]. split; [reflexivity|]. split; [vm_compute; reflexivity|].
  intros (_ & _ & H). specialize (H 1 1 ltac:(cbn; lia) ltac:(cbn; lia) ltac:(lia)). vm_compute in H. destruct H as [H|[H|H]]; try discriminate. contradiction.
Qed.
Print Assumptions C43_hasdiag_coo_refuted.

(* coordinate list without duplicates: correct on and below the main diagonal *)
Theorem C43_hasdiag_coo_partial : forall T L (m : Z -> T) (A : sparse T) diag, valid A -> sp_kind A = COO -> no_duplicates A -> diag <= 0 ->
  exists b, armassp_hasdiag A diag L m = Some (b, m) /\ (b = true <-> has_diagonal A diag).
Proof.
  intros T L m A diag V EK ND Hd. pose proof V as V'. unfold valid in V'. rewrite EK in V'. destruct V' as (V1 & V2 & V3 & V4 & V5).
  set (F := fun l : list (Z * Z) => Z.of_nat (length (filter (fun e => snd e - fst e =? diag) l))).
  set (pos := fun k => (ci (aget (sp_ep A) k), cj (aget (sp_ep A) k))).
  assert (EP : map fst (entries A) = map pos (zr 0 (sp_nnz A))) by (unfold entries; rewrite EK, map_map; reflexivity).
  assert (X : wp (armassp_hasdiag A diag) L m (fun b m' => m' = m /\ (b = true <-> has_diagonal A diag))).
  { unfold armassp_hasdiag, has_diagonal. destruct (Z.eqb_spec (sp_rows A) (sp_cols A)) as [Hsq|Hsq]; cbn [negb].
    2:{ apply wp_ret. split; [auto|]. split; [discriminate|tauto]. }
    destruct ((diag <? 0) && (sp_rows A <? - diag)) eqn:E1.
    { apply wp_ret. split; [auto|]. split; [discriminate|]. intros (_ & H & _). lia. }
    replace (0 <? diag) with false by lia. cbn [andb]. rewrite EK. wbind.
    apply wp_for1_acc with (I := fun k nc m' => m' = m /\ nc = sp_rows A + diag - F (map pos (zr 0 k))).
    - split; [auto|]. rewrite zr_nil by lia. cbn. destruct (Z.ltb_spec diag 0); lia.
    - intros k nc m1 Hk (-> & ->). wbind. apply aread_wp; [lia|]. apply wp_ret. split; [auto|]. rewrite zr_snoc, map_app by lia. unfold F.
      rewrite filter_app, app_length. cbn [map filter pos fst snd].
      replace (ci (aget (sp_ep A) k) + diag =? cj (aget (sp_ep A) k) + (if diag <? 0 then 0 else diag)) with (cj (aget (sp_ep A) k) - ci (aget (sp_ep A) k) =? diag) by (destruct (Z.ltb_spec diag 0); lia).
      destruct (cj (aget (sp_ep A) k) - ci (aget (sp_ep A) k) =? diag); cbn [length]; lia.
    - intros nc m1. rewrite Z.max_r by lia. intros (-> & ->). apply wp_ret. split; [auto|]. rewrite Z.eqb_eq, <- EP.
      set (D := map (fun i => (i, i + diag)) (zr (- diag) (sp_rows A))).
      assert (ND1 : NoDup D).
      { unfold D. apply FinFun.Injective_map_NoDup; [intros a b E; congruence|]. unfold zr. apply FinFun.Injective_map_NoDup; [intros a b; lia|apply seq_NoDup]. }
      assert (LD : length D = Z.to_nat (sp_rows A + diag)) by (unfold D; rewrite map_length, zr_length; f_equal; lia).
      set (S := filter (fun e => snd e - fst e =? diag) (map fst (entries A))).
      assert (ND2 : NoDup S) by (apply NoDup_filter; exact ND).
      assert (ID : forall e, In e D <-> (- diag <= fst e < sp_rows A /\ snd e = fst e + diag)).
      { intros [a b]. unfold D. rewrite in_map_iff. cbn [fst snd]. split.
        - intros (i & E & Hi). apply zr_in in Hi. inversion E; subst. lia.
        - intros (H1 & H2). exists a. split; [congruence|]. apply zr_in. lia. }
      assert (SD : incl S D).
      { intros [a b] H. unfold S in H. apply filter_In in H as [H E]. cbn [fst snd] in E. rewrite EP in H. apply in_map_iff in H as (k & Ek & Hk). apply zr_in in Hk.
        pose proof (V5 k Hk) as [P1 P2]. inversion Ek; subst. apply ID. cbn [fst snd]. lia. }
      assert (HF : F (map fst (entries A)) = Z.of_nat (length S)) by reflexivity. rewrite HF. split.
      + intro E. split; [auto|]. split; [lia|]. intros i j Hi Hj Hij.
        assert (incl D S) by (apply NoDup_length_incl; auto; lia). specialize (H (i, j) ltac:(apply ID; cbn [fst snd]; lia)). unfold S in H. apply filter_In in H as [H _]. exact H.
      + intros (_ & _ & H). assert (DS : incl D S).
        { intros [a b] Hin. apply ID in Hin. cbn [fst snd] in Hin. unfold S. apply filter_In. cbn [fst snd]. split; [apply H; lia|lia]. }
        pose proof (NoDup_incl_length ND1 DS). pose proof (NoDup_incl_length ND2 SD). lia. }
  destruct X as (b & m' & R & -> & H). exists b. auto.
Qed.
Print Assumptions C43_hasdiag_coo_partial.

(* coordinate list, a diagonal above the main one: the sign is the wrong one *)
Theorem C43_hasdiag_coo_sign_refuted : exists A : sparse Z, valid A /\ sp_kind A = COO /\ no_duplicates A /\
  armassp_hasdiag A 1 sv_L sv_m = Some (true, sv_m) /\ ~ has_diagonal A 1.
Proof.
  exists (mksparse (noarr 0) (mkarr 1 (fun p => mkcoo 1 1 0)) 2 2 1 (noarr 0) (noarr 0) 0 1 COO 64).
  split; [unfold valid; cbn; repeat split; try lia; sv_cases|]. split; [reflexivity|].
  split; [vm_compute; constructor; [intros []|constructor]|]. split; [vm_compute; reflexivity|].
  intros (_ & _ & H). specialize (H 0 1 ltac:(cbn; lia) ltac:(cbn; lia) ltac:(lia)). vm_compute in H. destruct H as [H|H]; try discriminate. contradiction.
Qed.
Print Assumptions C43_hasdiag_coo_sign_refuted.

(* ------------------------------------------------------------------ nz *)

(* the position of element k of line j, -1 when it is not stored; for lines that
   hold an element at or after k *)
Theorem C43_nz_partial : forall T L (m : Z -> T) (A : sparse T) j k,
  valid A -> sp_kind A <> COO -> strictly_ascending A -> 0 <= j < nlines A ->
  (exists p, aget (sp_ptr A) j <= p < aget (sp_ptr A) (j + 1) /\ k <= aget (sp_ix A) p) ->
  exists p, armassp_nz A j k L m = Some (p, m) /\
    ((aget (sp_ptr A) j <= p < aget (sp_ptr A) (j + 1) /\ aget (sp_ix A) p = k) \/
     (p = -1 /\ forall q, aget (sp_ptr A) j <= q < aget (sp_ptr A) (j + 1) -> aget (sp_ix A) q <> k)).
Proof.
  intros T L m A j k V Hk SA Hj (p & Hp & Hpk). pose proof (valid_linesr A V Hk) as HL.
  destruct (first_ex A (nlines A) j k p Hj Hp Hpk) as (g & G).
  assert (X : wp (armassp_nz A j k) L m (fun r m' => m' = m /\ r = (if aget (sp_ix A) g =? k then g else -1))).
  { eapply (nz_wp L A _ _ HL); eauto. }
  destruct X as (r & m' & R & -> & ->). eexists. split; [exact R|]. destruct G as (G1 & G2 & G3). unfold P in *.
  destruct (Z.eqb_spec (aget (sp_ix A) g) k) as [E|E]; [left; auto|right]. split; [reflexivity|]. intros q Hq Eq.
  destruct (Z_lt_dec q g); [specialize (G3 q ltac:(lia)); lia|]. destruct (Z.eq_dec q g) as [->|]; [lia|].
  pose proof (SA j g q Hj ltac:(lia) ltac:(lia) ltac:(lia)). lia.
Qed.
Print Assumptions C43_nz_partial.

(* looking for an element after the last one of the last line reads after the
   end of the index array *)
Theorem C43_nz_refuted : valid sv_nodiag /\ strictly_ascending sv_nodiag /\ armassp_nz sv_nodiag 1 1 sv_L sv_m = None /\
  armassp_nz (sv_sq CSC) 0 1 sv_L sv_m = Some (1, sv_m).
Proof.
  split; [unfold valid; cbn; repeat split; try lia; sv_cases|].
  split; [unfold strictly_ascending; cbn; intros j p q; sv_cases|]. split; vm_compute; reflexivity.
Qed.
Print Assumptions C43_nz_refuted.
