(* Properties_SpVec.v: properties C39, C40 and C68: products and triangular
   solves of compressed sparse matrices with dense vectors. *)
From Coq Require Import ZArith Lia List Bool Ring QArith Qcanon.
From Verif Require Import Mem MView MNum MFlags MSparse MSpVec SpecView SpecNum SpecSparse SpecSpVec
  Hoare PSum PFrame PSparse PSpconv PSpVec PSpTrm PSpSym Inst.
Import ListNotations.
Local Open Scope Z_scope.
Ltac lia := Lia.lia.

(* ------------------------------------------------------------------ preparations *)

Lemma reg_alloc : forall L x, contiguous x -> allocated L x -> reg L (elems x) (vlen x).
Proof. intros L x C AL k Hk. apply AL. apply contig_cell; [auto|lia]. Qed.

Lemma reg_disj : forall y x, contiguous y -> contiguous x -> disjoint y x ->
  forall i j, 0 <= i < vlen y -> 0 <= j < vlen x -> elems y + i <> elems x + j.
Proof.
  intros y x Cy Cx D i j Hi Hj E. apply (D (elems y + i)).
  - apply contig_cell; [auto|lia].
  - apply contig_cell; [auto|lia].
Qed.

Lemma frame_oc : forall T (x : view) (m m' : Z -> T), contiguous x -> (forall a, out (elems x) (vlen x) a -> m' a = m a) -> only_changes x m m'.
Proof.
  intros T x m m' C H a Ha. apply H. unfold out. destruct (Z_lt_dec a (elems x)); [lia|].
  destruct (Z_le_dec (elems x + vlen x) a); [lia|]. exfalso. apply Ha. apply contig_cell; [auto|lia].
Qed.

(* the position of the diagonal element of a line *)
Definition dpos {T} (A : sparse T) (j : Z) : Z :=
  match find (fun p => aget (sp_ix A) p =? j) (zr (aget (sp_ptr A) j) (aget (sp_ptr A) (j + 1))) with Some p => p | None => 0 end.

Lemma stored_line : forall T (A : sparse T) i j, valid A -> sp_kind A <> COO -> stored A i j ->
  let l := match sp_kind A with CSR => i | _ => j end in let c := match sp_kind A with CSR => j | _ => i end in
  exists p, aget (sp_ptr A) l <= p < aget (sp_ptr A) (l + 1) /\ aget (sp_ix A) p = c.
Proof.
  intros T A i j V Hk H. unfold stored, entries in H. destruct (sp_kind A) eqn:E; try congruence; cbn zeta;
    apply in_map_iff in H as ([[a b] c] & E1 & H); apply in_flat_map in H as (l & Hl & H);
    apply in_map_iff in H as ([q w] & E2 & H); unfold line_of in H; apply in_map_iff in H as (p & E3 & H); apply zr_in in H;
    cbn [fst snd] in *; inversion E1; inversion E2; inversion E3; subst; exists p; auto.
Qed.

Lemma dpos_ok : forall T (A : sparse T), valid A -> sp_kind A <> COO -> full_diagonal A ->
  forall j, 0 <= j < nlines A -> P A j <= dpos A j < P A (j + 1) /\ aget (sp_ix A) (dpos A j) = j.
Proof.
  intros T A V Hk F j Hj. pose proof (stored_line T A j j V Hk (F j Hj)) as H. cbn zeta in H.
  assert (H' : exists p, aget (sp_ptr A) j <= p < aget (sp_ptr A) (j + 1) /\ aget (sp_ix A) p = j) by (destruct (sp_kind A); auto). clear H.
  destruct H' as (p & Hp & E). unfold dpos, P.
  destruct (find (fun p => aget (sp_ix A) p =? j) (zr (aget (sp_ptr A) j) (aget (sp_ptr A) (j + 1)))) as [q|] eqn:EF.
  - apply find_some in EF as [H1 H2]. apply zr_in in H1. lia.
  - exfalso. pose proof (find_none _ _ EF p ltac:(apply zr_in; auto)) as X. cbn beta in X. lia.
Qed.

Section Sums.
  Context {T : Type} (K : num T).
  Hypothesis HR : is_ring K.
  Let HR' : ring_theory (zero K) (one K) (add K) (mul K) (sub K) (opp K) eq := HR.
  Add Ring KringP : HR'.

  Lemma up_sum : forall n i (M g f : Z -> T), 0 <= i <= n -> (forall k, 0 <= k < i -> M k = zero K) -> (forall k, i <= k < n -> M k = g k) ->
    vsum K n (fun k => mul K (M k) (f k)) = psum K i n (fun k => mul K (g k) (f k)).
  Proof.
    intros n i M g f Hi H0 H1. assert (E : vsum K n (fun k => mul K (M k) (f k)) = psum K 0 n (fun k => mul K (M k) (f k))).
    { unfold psum. rewrite Z.sub_0_r. reflexivity. }
    rewrite E, (psum_split K HR 0 i n) by lia. rewrite (psum_zero K HR 0 i) by (intros k Hk; rewrite H0 by lia; ring).
    rewrite (psum_ext K i n _ (fun k => mul K (g k) (f k))) by (intros k Hk; rewrite H1 by lia; reflexivity). ring.
  Qed.
  Lemma low_sum : forall n i (M g f : Z -> T), 0 <= i < n -> (forall k, i < k < n -> M k = zero K) -> (forall k, 0 <= k <= i -> M k = g k) ->
    vsum K n (fun k => mul K (M k) (f k)) = psum K 0 (i + 1) (fun k => mul K (g k) (f k)).
  Proof.
    intros n i M g f Hi H0 H1. assert (E : vsum K n (fun k => mul K (M k) (f k)) = psum K 0 n (fun k => mul K (M k) (f k))).
    { unfold psum. rewrite Z.sub_0_r. reflexivity. }
    rewrite E, (psum_split K HR 0 (i + 1) n) by lia. rewrite (psum_zero K HR (i + 1) n) by (intros k Hk; rewrite H0 by lia; ring).
    rewrite (psum_ext K 0 (i + 1) _ (fun k => mul K (g k) (f k))) by (intros k Hk; rewrite H1 by lia; reflexivity). ring.
  Qed.
  (* splitting at i, for symmetric matrices *)
  Lemma two_sum : forall n i (M g h f : Z -> T), 0 <= i <= n -> (forall k, 0 <= k < i -> M k = g k) -> (forall k, i <= k < n -> M k = h k) ->
    vsum K n (fun k => mul K (M k) (f k)) = add K (psum K 0 i (fun k => mul K (g k) (f k))) (psum K i n (fun k => mul K (h k) (f k))).
  Proof.
    intros n i M g h f Hi H0 H1. assert (E : vsum K n (fun k => mul K (M k) (f k)) = psum K 0 n (fun k => mul K (M k) (f k))).
    { unfold psum. rewrite Z.sub_0_r. reflexivity. }
    rewrite E, (psum_split K HR 0 i n) by lia.
    rewrite (psum_ext K 0 i _ (fun k => mul K (g k) (f k))) by (intros k Hk; rewrite H0 by lia; reflexivity).
    rewrite (psum_ext K i n _ (fun k => mul K (h k) (f k))) by (intros k Hk; rewrite H1 by lia; reflexivity). reflexivity.
  Qed.
End Sums.

(* ------------------------------------------------------------------ C39 *)

(* the claim about the product holds for vectors stored contiguously, for the
   flag words 0 and ARMAS_TRANS, and in row format with ARMAS_TRANS for square
   matrices only *)
Theorem C39_mvmult_partial : forall T (K : num T), is_ring K -> forall L m (A : sparse T) x y alpha beta (tr : bool),
  valid A -> sp_kind A <> COO -> contiguous x -> contiguous y -> allocated L x -> allocated L y -> disjoint y x ->
  vlen y = (if tr then sp_cols A else sp_rows A) -> vlen x = (if tr then sp_rows A else sp_cols A) ->
  (tr = true -> sp_kind A = CSR -> sp_rows A = sp_cols A) ->
  exists m', armassp_mvmult K beta y alpha A x (if tr then ARMAS_TRANS else 0) L m = Some ((0, 0), m') /\
    (forall i, 0 <= i < vlen y -> velt m' y i = add K (mul K beta (velt m y i))
       (mul K alpha (vsum K (vlen x) (fun k => mul K (if tr then value K A k i else value K A i k) (velt m x k))))) /\
    only_changes y m m'.
Proof.
  intros T K HR L m A x y alpha beta tr V Hk Cx Cy Ax Ay D Ny Nx Hsq.
  pose proof (valid_linesr A V Hk) as HL. pose proof V as (V1 & V2 & _).
  pose proof (reg_alloc L x Cx Ax) as Rx. pose proof (reg_alloc L y Cy Ay) as Ry. pose proof (reg_disj y x Cy Cx D) as Dxy.
  assert (X : wp (armassp_mvmult K beta y alpha A x (if tr then ARMAS_TRANS else 0)) L m (fun r m' => r = (0, 0) /\
    (forall i, 0 <= i < vlen y -> m' (elems y + i) = add K (mul K beta (m (elems y + i)))
       (mul K alpha (vsum K (vlen x) (fun k => mul K (if tr then value K A k i else value K A i k) (m (elems x + k)))))) /\
    (forall a, out (elems y) (vlen y) a -> m' a = m a))).
  { unfold armassp_mvmult.
    assert (S : sp_sizes_ok y A x (if tr then ARMAS_TRANS else 0) = true).
    { unfold sp_sizes_ok, armas_size. fold (vlen y) (vlen x). destruct tr; cbn.
      - rewrite Ny, Nx, Z.eqb_refl. cbn. apply Z.eqb_refl.
      - rewrite Ny, Nx, Z.eqb_refl. cbn. apply Z.eqb_refl. }
    rewrite S. cbn [negb]. unfold nlines, linelen in HL.
    destruct (sp_kind A) eqn:EK; try congruence; destruct tr; wbind.
    - (* column format, transposed *)
      unfold csc_mvmult. change (ARMAS_TRANS =? 0) with false. cbn iota. rewrite Ny in *. rewrite Nx in *.
      eapply wp_conseq; [apply (gather_wp K HR L A (sp_cols A) (sp_rows A)); auto|]. intros u m' (H1 & H2). apply wp_ret.
      split; [reflexivity|]. split; [|exact H2]. intros i Hi. rewrite H1 by auto. do 2 f_equal. apply vsum_ext. intros k Hk'.
      rewrite (value_lines K HR A k i V ltac:(congruence)) by lia. rewrite EK. reflexivity.
    - unfold csc_mvmult. cbn [Z.eqb]. rewrite Ny in *. rewrite Nx in *. wbind.
      eapply wp_conseq; [apply (scale_wp K HR); auto|]. intros u1 m1 (S1 & S2). cbn beta.
      eapply wp_conseq; [apply (scatter_wp K HR L A (sp_cols A) (sp_rows A)); auto|]. intros u m' (H1 & H2). apply wp_ret.
      assert (Ex : forall k, 0 <= k < sp_cols A -> m1 (elems x + k) = m (elems x + k)).
      { intros k Hk'. apply S2. unfold out. destruct (Z_lt_dec (elems x + k) (elems y)); [lia|]. destruct (Z_le_dec (elems y + sp_rows A) (elems x + k)); [lia|].
        exfalso. apply (Dxy (elems x + k - elems y) k); lia. }
      split; [reflexivity|]. split; [|intros a Ha; rewrite H2, S2 by auto; reflexivity]. intros i Hi. rewrite H1, S1 by auto. do 2 f_equal.
      apply vsum_ext. intros k Hk'. rewrite Ex by auto. rewrite (value_lines K HR A i k V ltac:(congruence)) by lia. rewrite EK. reflexivity.
    - specialize (Hsq eq_refl eq_refl).
      unfold csr_mvmult. change (ARMAS_TRANS =? 0) with false. cbn iota. rewrite Ny in *. rewrite Nx in *. wbind.
      eapply wp_conseq; [apply (scale_wp K HR); [rewrite Hsq; auto|auto]|]. intros u1 m1 (S1 & S2). cbn beta.
      eapply wp_conseq; [apply (scatter_wp K HR L A (sp_rows A) (sp_cols A)); auto|]. intros u m' (H1 & H2). apply wp_ret.
      assert (Ex : forall k, 0 <= k < sp_rows A -> m1 (elems x + k) = m (elems x + k)).
      { intros k Hk'. apply S2. unfold out. destruct (Z_lt_dec (elems x + k) (elems y)); [lia|]. destruct (Z_le_dec (elems y + sp_rows A) (elems x + k)); [lia|].
        exfalso. apply (Dxy (elems x + k - elems y) k); lia. }
      split; [reflexivity|]. split; [|intros a Ha; rewrite H2, S2 by (try rewrite Hsq; auto); reflexivity]. intros i Hi. rewrite H1, S1 by lia. do 2 f_equal.
      apply vsum_ext. intros k Hk'. rewrite Ex by auto. rewrite (value_lines K HR A k i V ltac:(congruence)) by lia. rewrite EK. reflexivity.
    - unfold csr_mvmult. cbn [Z.eqb]. rewrite Ny in *. rewrite Nx in *.
      eapply wp_conseq; [apply (gather_wp K HR L A (sp_rows A) (sp_cols A)); auto|]. intros u m' (H1 & H2). apply wp_ret.
      split; [reflexivity|]. split; [|exact H2]. intros i Hi. rewrite H1 by auto. do 2 f_equal. apply vsum_ext. intros k Hk'.
      rewrite (value_lines K HR A i k V ltac:(congruence)) by lia. rewrite EK. reflexivity. }
  destruct X as (r & m' & R & -> & H1 & H2). exists m'. split; [exact R|]. split; [|apply frame_oc; auto].
  intros i Hi. rewrite !contig_velt by auto. rewrite H1 by auto. do 2 f_equal. apply vsum_ext. intros k Hk'. rewrite contig_velt by auto. reflexivity.
Qed.
Print Assumptions C39_mvmult_partial.

(* a wrong length of x is reported when the length of y is right *)
Theorem C39_size_partial : forall T (K : num T) L m (A : sparse T) x y alpha beta (tr : bool),
  vlen y = (if tr then sp_cols A else sp_rows A) -> vlen x <> (if tr then sp_rows A else sp_cols A) ->
  armassp_mvmult K beta y alpha A x (if tr then ARMAS_TRANS else 0) L m = Some ((-1, ARMAS_ESIZE), m).
Proof.
  intros T K L m A x y alpha beta tr Hy Hx. unfold armassp_mvmult.
  replace (sp_sizes_ok y A x (if tr then ARMAS_TRANS else 0)) with false; [reflexivity|].
  unfold sp_sizes_ok, armas_size. fold (vlen y) (vlen x). destruct tr; cbn.
  - rewrite Hy, Z.eqb_refl. cbn. symmetry. apply Z.eqb_neq. auto.
  - rewrite Hy, Z.eqb_refl. cbn. symmetry. apply Z.eqb_neq. auto.
Qed.
Print Assumptions C39_size_partial.

Theorem C39_coordinate_list : forall T (K : num T) L m (A : sparse T) x y alpha beta flags, sp_kind A = COO ->
  exists e, armassp_mvmult K beta y alpha A x flags L m = Some ((-1, e), m) /\ e <> 0.
Proof.
  intros T K L m A x y alpha beta flags EK. unfold armassp_mvmult. rewrite EK. destruct (sp_sizes_ok y A x flags); cbn [negb].
  - exists ARMAS_EIMP. split; [reflexivity|discriminate].
  - exists ARMAS_ESIZE. split; [reflexivity|discriminate].
Qed.
Print Assumptions C39_coordinate_list.

(* small matrices for examples: 2x2, and 1x2 in row format *)
Definition sv_L : Z -> bool := fun a => (100 <=? a) && (a <? 200).
Definition sv_sq (k : spkind) : sparse Z :=
  mksparse (mkarr 3 (fun p => if p =? 0 then 2 else if p =? 1 then 5 else 3)) (noarr (coo0 Znum)) 2 2 3
    (mkarr 3 (fun j => if j =? 0 then 0 else if j =? 1 then 2 else 3)) (mkarr 3 (fun p => if p =? 0 then 0 else 1)) 2 3 k 64.
Definition sv_row : sparse Z :=
  mksparse (mkarr 2 (fun p => if p =? 0 then 4 else 7)) (noarr (coo0 Znum)) 1 2 2
    (mkarr 2 (fun j => if j =? 0 then 0 else 2)) (mkarr 2 (fun p => p)) 1 2 CSR 64.
(* vectors of length n at 100 and at 120 *)
Definition sv_y n : view := mkview 100 (Z.max n 1) n 1.
Definition sv_x n : view := mkview 120 (Z.max n 1) n 1.
Definition sv_m : Z -> Z := fun a => a - 99.

Ltac sv_cases := intros; repeat (match goal with |- context [if ?b then _ else _] => destruct b eqn:? | H : context [if ?b then _ else _] |- _ => destruct b eqn:? end; cbn in *; try lia).

Lemma sv_sq_ok : forall k, k <> COO -> valid (sv_sq k) /\ strictly_ascending (sv_sq k) /\ full_diagonal (sv_sq k).
Proof.
  intros k Hk. split; [|split].
  - unfold valid. destruct k; try congruence; cbn; repeat split; try lia; sv_cases.
  - unfold strictly_ascending. destruct k; try congruence; cbn; intros j p q; sv_cases.
  - intros j Hj. assert (Hj' : j = 0 \/ j = 1) by (destruct k; cbn in Hj; try congruence; lia).
    destruct k; try congruence; destruct Hj' as [->| ->]; vm_compute; tauto.
Qed.
Lemma sv_row_valid : valid sv_row.
Proof. unfold valid. cbn. repeat split; try lia; sv_cases. Qed.
Lemma sv_vecs : forall n, 0 <= n <= 20 -> contiguous (sv_x n) /\ contiguous (sv_y n) /\ allocated sv_L (sv_x n) /\ allocated sv_L (sv_y n) /\ disjoint (sv_y n) (sv_x n).
Proof.
  intros n Hn. repeat split; try (left; reflexivity).
  - intros a (i & j & [Hi Hj] & ->). unfold pos in *; cbn [sv_y sv_x rows cols elems step] in *. assert (j = 0) by lia. subst j. unfold sv_L. rewrite Z.mul_0_l. apply andb_true_intro. lia.
  - intros a (i & j & [Hi Hj] & ->). unfold pos in *; cbn [sv_y sv_x rows cols elems step] in *. assert (j = 0) by lia. subst j. unfold sv_L. rewrite Z.mul_0_l. apply andb_true_intro. lia.
  - intros a (i & j & [Hi Hj] & Ea) (i' & j' & [Hi' Hj'] & Ea'). unfold pos in *; cbn [sv_y sv_x rows cols elems step] in *. assert (j = 0) by lia. assert (j' = 0) by lia. subst j j'. lia.
Qed.

(* two rows, three columns *)
Definition sv_rect (k : spkind) : sparse Z :=
  match k with
  | CSR => mksparse (mkarr 3 (fun p => if p =? 0 then 2 else if p =? 1 then 5 else 3)) (noarr (coo0 Znum)) 2 3 3
             (mkarr 3 (fun j => if j =? 0 then 0 else if j =? 1 then 2 else 3)) (mkarr 3 (fun p => if p =? 0 then 0 else if p =? 1 then 2 else 1)) 2 3 CSR 64
  | _ => mksparse (mkarr 3 (fun p => if p =? 0 then 2 else if p =? 1 then 3 else 5)) (noarr (coo0 Znum)) 2 3 3
             (mkarr 4 (fun j => j)) (mkarr 3 (fun p => if p =? 1 then 1 else 0)) 3 3 CSC 64
  end.
Example C39_nonvacuous :
  valid (sv_rect CSC) /\ valid (sv_rect CSR) /\
  (exists m', armassp_mvmult Znum 3 (sv_y 2) 2 (sv_rect CSC) (sv_x 3) 0 sv_L sv_m = Some ((0, 0), m') /\ velt m' (sv_y 2) 0 = 317) /\
  (exists m', armassp_mvmult Znum 3 (sv_y 2) 2 (sv_rect CSR) (sv_x 3) 0 sv_L sv_m = Some ((0, 0), m') /\ velt m' (sv_y 2) 0 = 317) /\
  (exists m', armassp_mvmult Znum 3 (sv_y 3) 2 (sv_rect CSC) (sv_x 2) ARMAS_TRANS sv_L sv_m = Some ((0, 0), m') /\ velt m' (sv_y 3) 2 = 219) /\
  (exists m', armassp_mvmult Znum 3 (sv_y 2) 2 (sv_sq CSR) (sv_x 2) ARMAS_TRANS sv_L sv_m = Some ((0, 0), m') /\ velt m' (sv_y 2) 1 = 348) /\
  (contiguous (sv_x 3) /\ contiguous (sv_y 3) /\ allocated sv_L (sv_x 3) /\ allocated sv_L (sv_y 3) /\ disjoint (sv_y 3) (sv_x 3)).
Proof.
  split; [unfold valid; cbn; repeat split; try lia; sv_cases|].
  split; [unfold valid; cbn; repeat split; try lia; sv_cases|].
  do 4 (split; [eexists; split; [vm_compute; reflexivity|vm_compute; reflexivity]|]). apply (sv_vecs 3). lia.
Qed.

(* the length of y is not checked: with a square matrix a shorter y is accepted
   and the cell after it is overwritten *)
Theorem C39_ysize_refuted : exists (A : sparse Z) m', valid A /\ vlen (sv_y 1) <> sp_rows A /\
  armassp_mvmult Znum 1 (sv_y 1) 1 A (sv_x 2) 0 sv_L sv_m = Some ((0, 0), m') /\ m' 101 <> sv_m 101 /\ ~ cell (sv_y 1) 101.
Proof.
  exists (sv_sq CSC). eexists. split; [apply sv_sq_ok; discriminate|]. split; [discriminate|].
  split; [vm_compute; reflexivity|]. split; [vm_compute; discriminate|].
  intros (i & j & [Hi Hj] & E). unfold pos in *; cbn [sv_y sv_x rows cols elems step] in *. lia.
Qed.
Print Assumptions C39_ysize_refuted.

(* with fewer rows than columns the transposed product in row format scales only
   the first elements of y *)
Theorem C39_csr_trans_refuted : exists m', valid sv_row /\
  armassp_mvmult Znum 2 (sv_y 2) 1 sv_row (sv_x 1) ARMAS_TRANS sv_L sv_m = Some ((0, 0), m') /\
  velt m' (sv_y 2) 1 = 2 + 7 * 21 /\
  2 * velt sv_m (sv_y 2) 1 + 1 * vsum Znum 1 (fun k => value Znum sv_row k 1 * velt sv_m (sv_x 1) k) = 4 + 7 * 21.
Proof.
  eexists. split; [apply sv_row_valid|]. split; [vm_compute; reflexivity|]. split; vm_compute; reflexivity.
Qed.
Print Assumptions C39_csr_trans_refuted.

(* with more rows than columns the transposed product in row format scales cells after y *)
Definition sv_col : sparse Z :=
  mksparse (mkarr 2 (fun p => if p =? 0 then 4 else 7)) (noarr (coo0 Znum)) 2 1 2
    (mkarr 3 (fun j => j)) (mkarr 2 (fun p => 0)) 2 2 CSR 64.
Theorem C39_csr_trans_outside_refuted : exists m', valid sv_col /\ vlen (sv_y 1) = sp_cols sv_col /\ vlen (sv_x 2) = sp_rows sv_col /\
  armassp_mvmult Znum 2 (sv_y 1) 1 sv_col (sv_x 2) ARMAS_TRANS sv_L sv_m = Some ((0, 0), m') /\ m' 101 <> sv_m 101 /\ ~ cell (sv_y 1) 101.
Proof.
  eexists. split; [unfold valid; cbn; repeat split; try lia; sv_cases|]. do 2 (split; [reflexivity|]). split; [vm_compute; reflexivity|]. split; [vm_compute; discriminate|].
  intros (i & j & [Hi Hj] & E). unfold pos in *; cbn [sv_y sv_x rows cols elems step] in *. lia.
Qed.
Print Assumptions C39_csr_trans_outside_refuted.

(* a row vector of a larger matrix: its elements are not one after the other *)
Theorem C39_row_vector_refuted : exists m', valid (sv_sq CSC) /\
  let y := mkview 100 3 1 2 in
  wf y /\ allocated sv_L y /\ armassp_mvmult Znum 1 y 1 (sv_sq CSC) (sv_x 2) 0 sv_L sv_m = Some ((0, 0), m') /\
  velt m' y 1 = velt sv_m y 1 /\
  vsum Znum 2 (fun k => value Znum (sv_sq CSC) 1 k * velt sv_m (sv_x 2) k) <> 0.
Proof.
  eexists. split; [apply sv_sq_ok; discriminate|]. cbn zeta. split; [unfold wf; cbn; lia|].
  split; [intros a (i & j & [Hi Hj] & ->); cbn [rows cols elems step] in *; unfold pos in *; unfold sv_L; cbn [rows cols] in *; apply andb_true_intro; lia|].
  split; [vm_compute; reflexivity|]. split; [vm_compute; reflexivity|vm_compute; discriminate].
Qed.
Print Assumptions C39_row_vector_refuted.

(* ------------------------------------------------------------------ C40 *)

Lemma trm_select_ok : forall flags, has flags ARMAS_UPPER = negb (has flags ARMAS_LOWER) ->
  trm_select flags = (has flags ARMAS_UPPER, has flags ARMAS_TRANS).
Proof.
  intros flags H. unfold trm_select. rewrite !land_or. change ARMAS_TRANS with (2 ^ 7) in *. change ARMAS_UPPER with (2 ^ 1) in *. change ARMAS_LOWER with (2 ^ 0) in *.
  rewrite !has_bit in * by lia. rewrite !land_bit by lia.
  destruct (Z.testbit flags 7), (Z.testbit flags 1), (Z.testbit flags 0); cbn in H; try discriminate; reflexivity.
Qed.

Lemma tri_lines : forall T (K : num T), is_ring K -> forall (A : sparse T) (un : bool), valid A -> sp_kind A <> COO -> sp_rows A = sp_cols A ->
  forall i j, 0 <= i < sp_cols A -> 0 <= j < sp_cols A -> forall upper : bool, (if upper then i <= j else j <= i) ->
  sptri K A upper un i j = match sp_kind A with CSR => Td K A un i j | _ => Td K A un j i end.
Proof.
  intros T K HR A un V Hk Hsq i j Hi Hj upper Hs. unfold sptri, Td. pose proof (value_lines K HR A i j V Hk ltac:(lia) Hj) as E. pose proof (value_lines K HR A i i V Hk ltac:(lia) Hi) as E2.
  destruct (Z.eqb_spec i j) as [<-|Hne].
  - rewrite E2, Z.eqb_refl. destruct (sp_kind A); destruct un; reflexivity.
  - rewrite E. replace (j =? i) with false by lia. replace (i =? j) with false by lia.
    destruct upper; [replace (i <? j) with true by lia|replace (j <? i) with true by lia]; destruct (sp_kind A); reflexivity.
Qed.
Lemma tri_zero : forall T (K : num T) (A : sparse T) (upper un : bool) i j, (if upper then j < i else i < j) -> sptri K A upper un i j = zero K.
Proof.
  intros T K A upper un i j H. unfold sptri. replace (i =? j) with false by (destruct upper; lia).
  destruct upper; [replace (i <? j) with false by lia|replace (j <? i) with false by lia]; reflexivity.
Qed.

(* the sums over a line and over the lines that the kernels form *)
Section Forms.
  Context {T : Type} (K : num T).
  Hypothesis HR : is_ring K.
  Variables (A : sparse T) (up un tr : bool) (f : Z -> T).
  Hypothesis V : valid A.
  Hypothesis Hk : sp_kind A <> COO.
  Hypothesis Hsq : sp_rows A = sp_cols A.
  Notation n := (sp_cols A).

  Ltac form := intros k Hk'; unfold opsptri; match goal with Eu : up = _ |- _ => rewrite Eu in * end; destruct tr; cbn [negb] in *;
    [> first [apply tri_zero; lia|rewrite (tri_lines T K HR) by (auto; lia); match goal with E : sp_kind A = _ |- _ => rewrite E end; reflexivity] ..].

  Lemma form1 : forall i, 0 <= i < n -> sp_kind A = (if tr then CSR else CSC) -> up = negb tr ->
    psum K i n (fun k => mul K (Td K A un k i) (f k)) = vsum K n (fun k => mul K (opsptri K A up un tr i k) (f k)).
  Proof. intros i Hi EK Eu. symmetry. apply (up_sum K HR n i (opsptri K A up un tr i)); [lia|form|form]. Qed.
  Lemma form2 : forall i, 0 <= i < n -> sp_kind A = (if tr then CSR else CSC) -> up = tr ->
    psum K 0 (i + 1) (fun k => mul K (Td K A un k i) (f k)) = vsum K n (fun k => mul K (opsptri K A up un tr i k) (f k)).
  Proof. intros i Hi EK Eu. symmetry. apply (low_sum K HR n i (opsptri K A up un tr i)); [lia|form|form]. Qed.
  Lemma form3 : forall i, 0 <= i < n -> sp_kind A = (if tr then CSC else CSR) -> up = negb tr ->
    psum K i n (fun k => mul K (Td K A un i k) (f k)) = vsum K n (fun k => mul K (opsptri K A up un tr i k) (f k)).
  Proof. intros i Hi EK Eu. symmetry. apply (up_sum K HR n i (opsptri K A up un tr i)); [lia|form|form]. Qed.
  Lemma form4 : forall i, 0 <= i < n -> sp_kind A = (if tr then CSC else CSR) -> up = tr ->
    psum K 0 (i + 1) (fun k => mul K (Td K A un i k) (f k)) = vsum K n (fun k => mul K (opsptri K A up un tr i k) (f k)).
  Proof. intros i Hi EK Eu. symmetry. apply (low_sum K HR n i (opsptri K A up un tr i)); [lia|form|form]. Qed.
End Forms.

(* which combinations the search for the first element after the diagonal runs
   over the end of the index array for a unit diagonal *)
Definition searches_past (k : spkind) (upper tr : bool) : bool :=
  match k with CSR => upper && negb tr | _ => negb upper end.

Theorem C40_mvmult_trm_partial : forall T (K : num T), is_ring K -> forall L m (A : sparse T) x alpha flags,
  valid A -> sp_kind A <> COO -> sp_rows A = sp_cols A -> strictly_ascending A -> full_diagonal A ->
  contiguous x -> allocated L x -> vlen x = sp_cols A ->
  has flags ARMAS_UPPER = negb (has flags ARMAS_LOWER) ->
  (has flags ARMAS_UNIT = true -> searches_past (sp_kind A) (has flags ARMAS_UPPER) (has flags ARMAS_TRANS) = false) ->
  exists m', armassp_mvmult_trm K x alpha A flags L m = Some (0, m') /\
    (forall i, 0 <= i < vlen x -> velt m' x i = mul K alpha (vsum K (vlen x) (fun k =>
       mul K (opsptri K A (has flags ARMAS_UPPER) (has flags ARMAS_UNIT) (has flags ARMAS_TRANS) i k) (velt m x k)))) /\
    only_changes x m m'.
Proof.
  intros T K HR L m A x alpha flags V Hk Hsq SA FD Cx Ax Nx HUL HU.
  pose proof (valid_linesr A V Hk) as HL. pose proof V as (V1 & V2 & _).
  pose proof (reg_alloc L x Cx Ax) as Rx. pose proof (dpos_ok T A V Hk FD) as DP.
  assert (En : nlines A = sp_cols A) by (unfold nlines; destruct (sp_kind A); lia).
  assert (Ew : linelen A = sp_cols A) by (unfold linelen; destruct (sp_kind A); lia).
  rewrite En, Ew in HL. rewrite En in DP. rewrite Nx in Rx.
  assert (HS' : forall j p q, 0 <= j < sp_cols A -> P A j <= p -> p < q -> q < P A (j + 1) -> aget (sp_ix A) p < aget (sp_ix A) q).
  { intros j p q Hj. rewrite <- En in Hj. apply SA. auto. }
  set (n := sp_cols A) in *.
  set (up := has flags ARMAS_UPPER) in *. set (tr := has flags ARMAS_TRANS) in *. set (un := has flags ARMAS_UNIT) in *.
  assert (X : wp (armassp_mvmult_trm K x alpha A flags) L m (fun r m' => r = 0 /\
    (forall i, 0 <= i < n -> m' (elems x + i) = mul K alpha (vsum K n (fun k => mul K (opsptri K A up un tr i k) (m (elems x + k))))) /\
    frame n (elems x) m m')).
  { unfold armassp_mvmult_trm.
    assert (S : (if Z.land flags ARMAS_TRANS =? 0 then armas_size x =? sp_cols A else armas_size x =? sp_rows A) = true).
    { unfold armas_size. fold (vlen x). rewrite Nx, Hsq. fold n. rewrite Z.eqb_refl. destruct (Z.land flags ARMAS_TRANS =? 0); reflexivity. }
    rewrite S. cbn [negb]. rewrite (trm_select_ok flags HUL). fold up tr. change (negb (Z.land flags ARMAS_UNIT =? 0)) with un.
    clearbody up tr un.
    destruct (sp_kind A) eqn:EK; try congruence; cbn [kind_eqb]; destruct up, tr; cbn [negb searches_past andb] in *; wbind.
    - (* csc_mvmult_ut *) eapply wp_conseq; [apply (line_to_wp K HR L A n (elems x) HL Rx (dpos A) HS' DP un)|].
      intros u m' (H1 & H2). apply wp_ret. split; [reflexivity|]. split; [|exact H2]. intros i Hi. rewrite H1 by auto. f_equal. apply (form4 K HR); auto; try reflexivity; congruence.
    - eapply wp_conseq; [apply (csc_mvmult_un_wp K HR L A n (elems x) HL Rx (dpos A) HS' DP un); reflexivity|].
      intros u m' (H1 & H2). apply wp_ret. split; [reflexivity|]. split; [|exact H2]. intros i Hi. rewrite H1 by auto. f_equal. apply (form1 K HR); auto; try reflexivity; congruence.
    - assert (Eun : un = false) by (destruct un; auto; specialize (HU eq_refl); discriminate).
      eapply wp_conseq; [apply (line_from_wp K HR L A n (elems x) HL Rx (dpos A) HS' DP un); auto|].
      intros u m' (H1 & H2). apply wp_ret. split; [reflexivity|]. split; [|exact H2]. intros i Hi. rewrite H1 by auto. f_equal. apply (form3 K HR); auto; try reflexivity; congruence.
    - assert (Eun : un = false) by (destruct un; auto; specialize (HU eq_refl); discriminate).
      eapply wp_conseq; [apply (csc_mvmult_ln_wp K HR L A n (elems x) HL Rx (dpos A) HS' DP un); auto|].
      intros u m' (H1 & H2). apply wp_ret. split; [reflexivity|]. split; [|exact H2]. intros i Hi. rewrite H1 by auto. f_equal. apply (form2 K HR); auto; try reflexivity; congruence.
    - eapply wp_conseq; [apply (csr_mvmult_ut_wp K HR L A n (elems x) HL Rx (dpos A) HS' DP un); auto|].
      intros u m' (H1 & H2). apply wp_ret. split; [reflexivity|]. split; [|exact H2]. intros i Hi. rewrite H1 by auto. f_equal. apply (form2 K HR); auto; try reflexivity; congruence.
    - assert (Eun : un = false) by (destruct un; auto; specialize (HU eq_refl); discriminate).
      unfold csr_mvmult_un. rewrite Hsq. fold n. eapply wp_conseq; [apply (line_from_wp K HR L A n (elems x) HL Rx (dpos A) HS' DP un); auto|].
      intros u m' (H1 & H2). apply wp_ret. split; [reflexivity|]. split; [|exact H2]. intros i Hi. rewrite H1 by auto. f_equal. apply (form3 K HR); auto; try reflexivity; congruence.
    - eapply wp_conseq; [apply (csr_mvmult_lt_wp K HR L A n (elems x) HL Rx (dpos A) HS' DP un); auto|].
      intros u m' (H1 & H2). apply wp_ret. split; [reflexivity|]. split; [|exact H2]. intros i Hi. rewrite H1 by auto. f_equal. apply (form1 K HR); auto; try reflexivity; congruence.
    - unfold csr_mvmult_ln. rewrite Hsq. fold n. eapply wp_conseq; [apply (line_to_wp K HR L A n (elems x) HL Rx (dpos A) HS' DP un)|].
      intros u m' (H1 & H2). apply wp_ret. split; [reflexivity|]. split; [|exact H2]. intros i Hi. rewrite H1 by auto. f_equal. apply (form4 K HR); auto; try reflexivity; congruence. }
  destruct X as (r & m' & R & -> & H1 & H2). exists m'. split; [exact R|]. split; [|apply frame_oc; auto; rewrite Nx; exact H2].
  intros i Hi. rewrite contig_velt by auto. rewrite Nx in *. rewrite H1 by auto. f_equal. apply vsum_ext. intros k Hk'. rewrite contig_velt by (rewrite ?Nx; auto). reflexivity.
Qed.
Print Assumptions C40_mvmult_trm_partial.

(* the solution of op(A)x = b, whatever alpha is; a scalar alpha other than one
   is not honoured, see C40_alpha_refuted *)
Theorem C40_mvsolve_trm_partial : forall T (K : num T), is_field K -> forall L m (A : sparse T) x alpha flags,
  valid A -> sp_kind A <> COO -> sp_rows A = sp_cols A -> 1 <= sp_cols A -> strictly_ascending A -> full_diagonal A ->
  contiguous x -> allocated L x -> vlen x = sp_cols A ->
  has flags ARMAS_UPPER = negb (has flags ARMAS_LOWER) ->
  (has flags ARMAS_UNIT = true \/ forall j, 0 <= j < sp_cols A -> value K A j j <> zero K) ->
  exists m', armassp_mvsolve_trm K x alpha A flags L m = Some (0, m') /\
    (forall i, 0 <= i < vlen x -> vsum K (vlen x) (fun k =>
       mul K (opsptri K A (has flags ARMAS_UPPER) (has flags ARMAS_UNIT) (has flags ARMAS_TRANS) i k) (velt m' x k)) = velt m x i) /\
    only_changes x m m'.
Proof.
  intros T K HF L m A x alpha flags V Hk Hsq N1 SA FD Cx Ax Nx HUL Hnz.
  pose proof (F_R HF) as HR.
  assert (Hdiv : forall a d, d <> zero K -> mul K d (div K a d) = a).
  { intros a d Hd. rewrite (Fdiv_def HF a d). rewrite (Rmul_comm HR a), (Rmul_assoc HR), (Rmul_comm HR d), (Finv_l HF d Hd). apply (Rmul_1_l HR). }
  pose proof (valid_linesr A V Hk) as HL. pose proof V as (V1 & V2 & _).
  pose proof (reg_alloc L x Cx Ax) as Rx. pose proof (dpos_ok T A V Hk FD) as DP.
  assert (En : nlines A = sp_cols A) by (unfold nlines; destruct (sp_kind A); lia).
  assert (Ew : linelen A = sp_cols A) by (unfold linelen; destruct (sp_kind A); lia).
  rewrite En, Ew in HL. rewrite En in DP. rewrite Nx in Rx.
  assert (HS' : forall j p q, 0 <= j < sp_cols A -> P A j <= p -> p < q -> q < P A (j + 1) -> aget (sp_ix A) p < aget (sp_ix A) q).
  { intros j p q Hj. rewrite <- En in Hj. apply SA. auto. }
  set (n := sp_cols A) in *.
  set (up := has flags ARMAS_UPPER) in *. set (tr := has flags ARMAS_TRANS) in *. set (un := has flags ARMAS_UNIT) in *.
  assert (Hnz' : un = true \/ forall j, 0 <= j < n -> lval K A j j <> zero K).
  { destruct Hnz as [|H]; [auto|right]. intros j Hj. specialize (H j Hj). rewrite (value_lines K HR A j j V Hk ltac:(lia) Hj) in H. destruct (sp_kind A); auto. }
  assert (X : wp (armassp_mvsolve_trm K x alpha A flags) L m (fun r m' => r = 0 /\
    (forall i, 0 <= i < n -> vsum K n (fun k => mul K (opsptri K A up un tr i k) (m' (elems x + k))) = m (elems x + i)) /\
    frame n (elems x) m m')).
  { unfold armassp_mvsolve_trm.
    assert (S : (if Z.land flags ARMAS_TRANS =? 0 then armas_size x =? sp_cols A else armas_size x =? sp_rows A) = true).
    { unfold armas_size. fold (vlen x). rewrite Nx, Hsq. fold n. rewrite Z.eqb_refl. destruct (Z.land flags ARMAS_TRANS =? 0); reflexivity. }
    rewrite S. cbn [negb]. rewrite (trm_select_ok flags HUL). fold up tr. change (negb (Z.land flags ARMAS_UNIT =? 0)) with un.
    clearbody up tr un.
    destruct (sp_kind A) eqn:EK; try congruence; cbn [kind_eqb]; destruct up, tr; cbn [negb] in *; wbind.
    - eapply wp_conseq; [apply (csc_mvsolve_ut_wp K HR L A n (elems x) HL Rx (dpos A) HS' DP un Hdiv Hnz'); auto|].
      intros u m' (H1 & H2). apply wp_ret. split; [reflexivity|]. split; [|exact H2]. intros i Hi. rewrite <- H1 by auto. symmetry. apply (form4 K HR); auto; try reflexivity; congruence.
    - eapply wp_conseq; [apply (csc_mvsolve_un_wp K HR L A n (elems x) HL Rx (dpos A) HS' DP un Hdiv Hnz'); auto|].
      intros u m' (H1 & H2). apply wp_ret. split; [reflexivity|]. split; [|exact H2]. intros i Hi. rewrite <- H1 by auto. symmetry. apply (form1 K HR); auto; try reflexivity; congruence.
    - eapply wp_conseq; [apply (csc_mvsolve_lt_wp K HR L A n (elems x) HL Rx (dpos A) HS' DP un Hdiv Hnz'); auto|].
      intros u m' (H1 & H2). apply wp_ret. split; [reflexivity|]. split; [|exact H2]. intros i Hi. rewrite <- H1 by auto. symmetry. apply (form3 K HR); auto; try reflexivity; congruence.
    - eapply wp_conseq; [apply (csc_mvsolve_ln_wp K HR L A n (elems x) HL Rx (dpos A) HS' DP un Hdiv Hnz'); auto|].
      intros u m' (H1 & H2). apply wp_ret. split; [reflexivity|]. split; [|exact H2]. intros i Hi. rewrite <- H1 by auto. symmetry. apply (form2 K HR); auto; try reflexivity; congruence.
    - eapply wp_conseq; [apply (csr_mvsolve_ut_wp K HR L A n (elems x) HL Rx (dpos A) HS' DP un Hdiv Hnz'); auto|].
      intros u m' (H1 & H2). apply wp_ret. split; [reflexivity|]. split; [|exact H2]. intros i Hi. rewrite <- H1 by auto. symmetry. apply (form2 K HR); auto; try reflexivity; congruence.
    - eapply wp_conseq; [apply (csr_mvsolve_un_wp K HR L A n (elems x) HL Rx (dpos A) HS' DP un Hdiv Hnz'); auto|].
      intros u m' (H1 & H2). apply wp_ret. split; [reflexivity|]. split; [|exact H2]. intros i Hi. rewrite <- H1 by auto. symmetry. apply (form3 K HR); auto; try reflexivity; congruence.
    - eapply wp_conseq; [apply (csr_mvsolve_lt_wp K HR L A n (elems x) HL Rx (dpos A) HS' DP un Hdiv Hnz'); auto|].
      intros u m' (H1 & H2). apply wp_ret. split; [reflexivity|]. split; [|exact H2]. intros i Hi. rewrite <- H1 by auto. symmetry. apply (form1 K HR); auto; try reflexivity; congruence.
    - eapply wp_conseq; [apply (csr_mvsolve_ln_wp K HR L A n (elems x) HL Rx (dpos A) HS' DP un Hdiv Hnz'); auto|].
      intros u m' (H1 & H2). apply wp_ret. split; [reflexivity|]. split; [|exact H2]. intros i Hi. rewrite <- H1 by auto. symmetry. apply (form4 K HR); auto; try reflexivity; congruence. }
  destruct X as (r & m' & R & -> & H1 & H2). exists m'. split; [exact R|]. split; [|apply frame_oc; auto; rewrite Nx; exact H2].
  intros i Hi. rewrite (contig_velt T m) by auto. rewrite Nx in *. rewrite <- H1 by auto. apply vsum_ext. intros k Hk'. rewrite contig_velt by (rewrite ?Nx; auto). reflexivity.
Qed.
Print Assumptions C40_mvsolve_trm_partial.

(* vectors of a wrong length and coordinate lists are refused *)
Theorem C40_refused : forall T (K : num T) L m (A : sparse T) x alpha flags,
  (sp_kind A = COO -> armassp_mvsolve_trm K x alpha A flags L m = Some (- ARMAS_EINVAL, m) /\ armassp_mvmult_trm K x alpha A flags L m = Some (- ARMAS_EINVAL, m)) /\
  (sp_kind A <> COO -> vlen x <> (if has flags ARMAS_TRANS then sp_rows A else sp_cols A) ->
   armassp_mvsolve_trm K x alpha A flags L m = Some (- ARMAS_ESIZE, m) /\ armassp_mvmult_trm K x alpha A flags L m = Some (- ARMAS_ESIZE, m)).
Proof.
  intros T K L m A x alpha flags. unfold armassp_mvsolve_trm, armassp_mvmult_trm. split.
  - intros ->. split; reflexivity.
  - intros Hk Hx. replace (if Z.land flags ARMAS_TRANS =? 0 then armas_size x =? sp_cols A else armas_size x =? sp_rows A) with false.
    + destruct (sp_kind A); try congruence; split; reflexivity.
    + unfold has in Hx. unfold armas_size. fold (vlen x). destruct (Z.land flags ARMAS_TRANS =? 0); cbn [negb] in Hx; symmetry; apply Z.eqb_neq; auto.
Qed.
Print Assumptions C40_refused.

(* 2x2 over the rationals *)
Definition sv_q (k : spkind) : sparse Qc :=
  mksparse (mkarr 3 (fun p => if p =? 0 then Q2Qc 2 else if p =? 1 then Q2Qc 5 else Q2Qc 4)) (noarr (coo0 Qcnum)) 2 2 3
    (mkarr 3 (fun j => if j =? 0 then 0 else if j =? 1 then 2 else 3)) (mkarr 3 (fun p => if p =? 0 then 0 else 1)) 2 3 k 64.
Definition sv_qm : Z -> Qc := fun a => Q2Qc (inject_Z (a - 99)).

Lemma sv_q_ok : forall k, k <> COO -> valid (sv_q k) /\ strictly_ascending (sv_q k) /\ full_diagonal (sv_q k).
Proof.
  intros k Hk. split; [|split].
  - unfold valid. destruct k; try congruence; cbn; repeat split; try lia; sv_cases.
  - unfold strictly_ascending. destruct k; try congruence; cbn; intros j p q; sv_cases.
  - intros j Hj. assert (Hj' : j = 0 \/ j = 1) by (destruct k; cbn in Hj; try congruence; lia).
    destruct k; try congruence; destruct Hj' as [->| ->]; vm_compute; tauto.
Qed.

(* lower in column format, x = (21, 22): the product is (42, 5*21 + 4*22) and the
   solution of Ax = b is (21/2, (22 - 105/2)/4) *)
Example C40_nonvacuous :
  (forall j, 0 <= j < 2 -> value Qcnum (sv_q CSC) j j <> Q2Qc 0) /\ contiguous (sv_x 2) /\ allocated sv_L (sv_x 2) /\
  valid (sv_q CSC) /\ strictly_ascending (sv_q CSC) /\ full_diagonal (sv_q CSC) /\
  (exists m', armassp_mvmult_trm Qcnum (sv_x 2) (one Qcnum) (sv_q CSC) ARMAS_LOWER sv_L sv_qm = Some (0, m') /\
     this (velt m' (sv_x 2) 0) = (42 # 1)%Q /\ this (velt m' (sv_x 2) 1) = (193 # 1)%Q) /\
  (exists m', armassp_mvsolve_trm Qcnum (sv_x 2) (one Qcnum) (sv_q CSC) ARMAS_LOWER sv_L sv_qm = Some (0, m') /\
     this (velt m' (sv_x 2) 0) = (21 # 2)%Q /\ this (velt m' (sv_x 2) 1) = (-61 # 8)%Q).
Proof.
  split. { intros j Hj. assert (H : j = 0 \/ j = 1) by lia. destruct H as [->| ->]; intro E; apply (f_equal this) in E; vm_compute in E; discriminate. }
  pose proof (sv_vecs 2 ltac:(lia)) as (H1 & _ & H2 & _ & _). pose proof (sv_q_ok CSC ltac:(discriminate)) as (H3 & H4 & H5).
  do 5 (split; [assumption|]). split; (eexists; split; [vm_compute; reflexivity|split; vm_compute; reflexivity]).
Qed.

(* alpha is ignored by the solver: every result is the one for alpha = 1 *)
Theorem C40_alpha_refuted :
  (forall T (K : num T) L m (A : sparse T) x alpha flags, armassp_mvsolve_trm K x alpha A flags L m = armassp_mvsolve_trm K x (one K) A flags L m) /\
  exists m', armassp_mvsolve_trm Qcnum (sv_x 2) (Q2Qc 3) (sv_q CSC) ARMAS_LOWER sv_L sv_qm = Some (0, m') /\
    vsum Qcnum 2 (fun k => Qcmult (opsptri Qcnum (sv_q CSC) false false false 0 k) (velt m' (sv_x 2) k)) <> Qcmult (Q2Qc 3) (velt sv_qm (sv_x 2) 0).
Proof.
  split; [reflexivity|]. eexists. split; [vm_compute; reflexivity|]. intro E. apply (f_equal this) in E. vm_compute in E. discriminate.
Qed.
Print Assumptions C40_alpha_refuted.

(* with a unit diagonal the search for the first element below the diagonal of
   the last column reads after the end of the index array *)
Theorem C40_unit_refuted : valid (sv_q CSC) /\ strictly_ascending (sv_q CSC) /\ full_diagonal (sv_q CSC) /\ contiguous (sv_x 2) /\ allocated sv_L (sv_x 2) /\
  armassp_mvmult_trm Qcnum (sv_x 2) (one Qcnum) (sv_q CSC) (Z.lor ARMAS_LOWER ARMAS_UNIT) sv_L sv_qm = None.
Proof.
  pose proof (sv_vecs 2 ltac:(lia)) as (H1 & _ & H2 & _ & _). pose proof (sv_q_ok CSC ltac:(discriminate)) as (H3 & H4 & H5).
  do 5 (split; [assumption|]). vm_compute. reflexivity.
Qed.
Print Assumptions C40_unit_refuted.

(* a matrix without rows: the first element is read anyway *)
Definition sv_empty : sparse Qc :=
  mksparse (noarr (Q2Qc 0)) (noarr (coo0 Qcnum)) 0 0 0 (mkarr 1 (fun _ => 0)) (noarr 0) 0 0 CSR 8.
Theorem C40_empty_refuted : valid sv_empty /\ vlen (sv_x 0) = sp_cols sv_empty /\
  armassp_mvsolve_trm Qcnum (sv_x 0) (one Qcnum) sv_empty ARMAS_LOWER sv_L sv_qm = None.
Proof.
  split; [unfold valid; cbn; repeat split; try lia|]. split; [reflexivity|]. vm_compute. reflexivity.
Qed.
Print Assumptions C40_empty_refuted.

(* ------------------------------------------------------------------ C68 *)

Theorem C68_mvmult_sym_partial : forall T (K : num T), is_ring K -> eqb_ok K -> forall L m (A : sparse T) x y alpha beta flags,
  valid A -> sp_kind A <> COO -> sp_rows A = sp_cols A -> strictly_ascending A -> full_diagonal A ->
  contiguous x -> contiguous y -> allocated L x -> allocated L y -> disjoint y x ->
  vlen x = sp_cols A -> vlen y = sp_cols A ->
  has flags ARMAS_UPPER = negb (has flags ARMAS_LOWER) ->
  exists m', armassp_mvmult_sym K beta y alpha A x flags L m = Some ((0, 0), m') /\
    (forall i, 0 <= i < vlen y -> velt m' y i = add K (mul K beta (velt m y i))
       (mul K alpha (vsum K (vlen x) (fun k => mul K (spsym K A (has flags ARMAS_UPPER) i k) (velt m x k))))) /\
    only_changes y m m'.
Proof.
  intros T K HR HE L m A x y alpha beta flags V Hk Hsq SA FD Cx Cy Ax Ay D Nx Ny HUL.
  pose proof (valid_linesr A V Hk) as HL. pose proof V as (V1 & V2 & _).
  pose proof (reg_alloc L x Cx Ax) as Rx. pose proof (reg_alloc L y Cy Ay) as Ry. pose proof (reg_disj y x Cy Cx D) as Dxy. pose proof (dpos_ok T A V Hk FD) as DP.
  assert (En : nlines A = sp_cols A) by (unfold nlines; destruct (sp_kind A); lia).
  assert (Ew : linelen A = sp_cols A) by (unfold linelen; destruct (sp_kind A); lia).
  rewrite En, Ew in HL. rewrite En in DP. rewrite Nx in Rx. rewrite Ny in Ry. rewrite Nx, Ny in Dxy.
  assert (HS' : forall j p q, 0 <= j < sp_cols A -> P A j <= p -> p < q -> q < P A (j + 1) -> aget (sp_ix A) p < aget (sp_ix A) q).
  { intros j p q Hj. rewrite <- En in Hj. apply SA. auto. }
  set (n := sp_cols A) in *.
  assert (Esel : (Z.land flags (Z.lor ARMAS_LOWER ARMAS_UPPER) =? ARMAS_UPPER) = has flags ARMAS_UPPER).
  { revert HUL. rewrite land_or. change ARMAS_UPPER with (2 ^ 1). change ARMAS_LOWER with (2 ^ 0). rewrite !has_bit, !land_bit by lia.
    destruct (Z.testbit flags 1), (Z.testbit flags 0); cbn; intro; try discriminate; reflexivity. }
  set (up := has flags ARMAS_UPPER) in *.
  assert (VL : forall i j, 0 <= i < n -> 0 <= j < n -> value K A i j = match sp_kind A with CSR => lval K A i j | _ => lval K A j i end).
  { intros i j Hi Hj. apply (value_lines K HR A i j V Hk); [lia|auto]. }
  assert (X : wp (armassp_mvmult_sym K beta y alpha A x flags) L m (fun r m' => r = (0, 0) /\
    (forall i, 0 <= i < n -> m' (elems y + i) = add K (mul K beta (m (elems y + i)))
       (mul K alpha (vsum K n (fun k => mul K (spsym K A up i k) (m (elems x + k)))))) /\
    (forall a, out (elems y) n a -> m' a = m a))).
  { unfold armassp_mvmult_sym.
    assert (S : sp_sizes_ok y A x flags = true).
    { unfold sp_sizes_ok, armas_size. fold (vlen y) (vlen x). rewrite Nx, Ny, Hsq. fold n. rewrite Z.eqb_refl. destruct (Z.land flags ARMAS_TRANS =? 0); reflexivity. }
    rewrite S, Esel. cbn [negb]. clearbody up.
    destruct (sp_kind A) eqn:EK; try congruence; cbn [kind_eqb]; destruct up; cbn [Bool.eqb]; wbind.
    - eapply wp_conseq; [apply (usym_wp K HR HE L A n (elems y) (elems x) HL Rx Ry Dxy (dpos A) HS' DP); auto|].
      intros u m' (H1 & H2). apply wp_ret. split; [reflexivity|]. split; [|exact H2]. intros i Hi. rewrite H1 by auto. do 2 f_equal. symmetry.
      rewrite (two_sum K HR n (i + 1) (spsym K A true i) (fun k => lval K A i k) (fun k => lval K A k i)); [reflexivity|lia| |]; intros k Hk'; unfold spsym.
      + destruct (Z.leb_spec i k); rewrite VL by lia; [replace k with i by lia|]; reflexivity.
      + replace (i <=? k) with true by lia. rewrite VL by lia. reflexivity.
    - eapply wp_conseq; [apply (lsym_wp K HR HE L A n (elems y) (elems x) HL Rx Ry Dxy (dpos A) HS' DP); auto|].
      intros u m' (H1 & H2). apply wp_ret. split; [reflexivity|]. split; [|exact H2]. intros i Hi. rewrite H1 by auto. do 2 f_equal. symmetry.
      rewrite (two_sum K HR n i (spsym K A false i) (fun k => lval K A k i) (fun k => lval K A i k)); [reflexivity|lia| |]; intros k Hk'; unfold spsym.
      + replace (k <=? i) with true by lia. rewrite VL by lia. reflexivity.
      + destruct (Z.leb_spec k i); rewrite VL by lia; [replace k with i by lia|]; reflexivity.
    - eapply wp_conseq; [apply (lsym_wp K HR HE L A n (elems y) (elems x) HL Rx Ry Dxy (dpos A) HS' DP); auto|].
      intros u m' (H1 & H2). apply wp_ret. split; [reflexivity|]. split; [|exact H2]. intros i Hi. rewrite H1 by auto. do 2 f_equal. symmetry.
      rewrite (two_sum K HR n i (spsym K A true i) (fun k => lval K A k i) (fun k => lval K A i k)); [reflexivity|lia| |]; intros k Hk'; unfold spsym.
      + replace (i <=? k) with false by lia. rewrite VL by lia. reflexivity.
      + replace (i <=? k) with true by lia. rewrite VL by lia. reflexivity.
    - eapply wp_conseq; [apply (usym_wp K HR HE L A n (elems y) (elems x) HL Rx Ry Dxy (dpos A) HS' DP); auto|].
      intros u m' (H1 & H2). apply wp_ret. split; [reflexivity|]. split; [|exact H2]. intros i Hi. rewrite H1 by auto. do 2 f_equal. symmetry.
      rewrite (two_sum K HR n (i + 1) (spsym K A false i) (fun k => lval K A i k) (fun k => lval K A k i)); [reflexivity|lia| |]; intros k Hk'; unfold spsym.
      + replace (k <=? i) with true by lia. rewrite VL by lia. reflexivity.
      + replace (k <=? i) with false by lia. rewrite VL by lia. reflexivity. }
  destruct X as (r & m' & R & -> & H1 & H2). exists m'. split; [exact R|]. split; [|apply frame_oc; auto; rewrite Ny; exact H2].
  intros i Hi. rewrite !contig_velt by auto. rewrite Nx, Ny in *. rewrite H1 by auto. do 2 f_equal. apply vsum_ext. intros k Hk'. rewrite contig_velt by (rewrite ?Nx; auto). reflexivity.
Qed.
Print Assumptions C68_mvmult_sym_partial.

Theorem C68_coordinate_list : forall T (K : num T) L m (A : sparse T) x y alpha beta flags, sp_kind A = COO ->
  armassp_mvmult_sym K beta y alpha A x flags L m = Some ((- ARMAS_EINVAL, ARMAS_EINVAL), m).
Proof. intros T K L m A x y alpha beta flags EK. unfold armassp_mvmult_sym. rewrite EK. reflexivity. Qed.
Print Assumptions C68_coordinate_list.

(* [2 5; 5 3] (21, 22) *)
Example C68_nonvacuous : valid (sv_sq CSC) /\ strictly_ascending (sv_sq CSC) /\ full_diagonal (sv_sq CSC) /\
  (contiguous (sv_x 2) /\ contiguous (sv_y 2) /\ allocated sv_L (sv_x 2) /\ allocated sv_L (sv_y 2) /\ disjoint (sv_y 2) (sv_x 2)) /\
  exists m', armassp_mvmult_sym Znum 3 (sv_y 2) 2 (sv_sq CSC) (sv_x 2) ARMAS_LOWER sv_L sv_m = Some ((0, 0), m') /\
    velt m' (sv_y 2) 0 = 3 * 1 + 2 * (2 * 21 + 5 * 22) /\ velt m' (sv_y 2) 1 = 3 * 2 + 2 * (5 * 21 + 3 * 22).
Proof.
  pose proof (sv_sq_ok CSC ltac:(discriminate)) as (H1 & H2 & H3). do 3 (split; [assumption|]). split; [apply sv_vecs; lia|].
  eexists. split; [vm_compute; reflexivity|]. split; vm_compute; reflexivity.
Qed.

(* without a stored diagonal element in the last column the index array is read
   beyond its end *)
Definition sv_nodiag : sparse Z :=
  mksparse (mkarr 2 (fun p => if p =? 0 then 2 else 5)) (noarr (coo0 Znum)) 2 2 2
    (mkarr 3 (fun j => if j =? 0 then 0 else 2)) (mkarr 2 (fun p => p)) 2 2 CSC 64.
Theorem C68_missing_diagonal_refuted : valid sv_nodiag /\ strictly_ascending sv_nodiag /\
  armassp_mvmult_sym Znum 3 (sv_y 2) 2 sv_nodiag (sv_x 2) ARMAS_LOWER sv_L sv_m = None.
Proof.
  split; [unfold valid; cbn; repeat split; try lia; sv_cases|].
  split; [unfold strictly_ascending; cbn; intros j p q; sv_cases|]. vm_compute. reflexivity.
Qed.
Print Assumptions C68_missing_diagonal_refuted.
