(* Properties_SpMul.v: property C42, products of compressed matrices. *)
From Coq Require Import ZArith Lia List Bool Ring.
From Verif Require Import Mem MView MNum MFlags MBase MSparse MSpVec MSpAcc SpecView SpecNum SpecSparse SpecSpVec
  Hoare PSum PFrame PSparse PSpconv PSpVec PSpTrm PSpDiag PSpAcc PSpLines Inst Properties_SpVec Properties_SpDiag Properties_SpAcc.
Import ListNotations.
Local Open Scope Z_scope.
Ltac lia := Lia.lia.

(* op(A): the matrix or its transpose *)
Definition opvalue {T} (K : num T) (tr : bool) (A : sparse T) (i j : Z) : T := if tr then value K A j i else value K A i j.
Definition opstored {T} (tr : bool) (A : sparse T) (i j : Z) : Prop := if tr then stored A j i else stored A i j.
Definition oprows {T} (tr : bool) (A : sparse T) : Z := if tr then sp_cols A else sp_rows A.
Definition opcols {T} (tr : bool) (A : sparse T) : Z := if tr then sp_rows A else sp_cols A.

(* the positions and the elements of op(A)*op(B) *)
Definition prod_stored {T} (ta tb : bool) (A B : sparse T) (i j : Z) : Prop := exists k, opstored ta A i k /\ opstored tb B k j.
Definition prod_value {T} (K : num T) (ta tb : bool) (A B : sparse T) (i j : Z) : T :=
  vsum K (opcols ta A) (fun k => mul K (opvalue K ta A i k) (opvalue K tb B k j)).

(* the variants that are right: see the refutations below for the others *)
Definition right_variant {T} (K : num T) (k : spkind) (ta tb : bool) (alpha : T) (A B : sparse T) : Prop :=
  match k with
  | CSR => (ta = false -> tb = false -> alpha = one K) /\ (ta = true -> sp_rows A = sp_cols A)
  | _ => (ta = false -> tb = true -> sp_rows B = sp_cols B) /\ (ta = true -> tb = true -> sp_cols A = sp_rows B)
  end.

Lemma multto_run : forall T (K : num T) sz ltr L m (A B C : sparse T) alpha flags w junk (Q : sparse T -> Prop),
  let ta := has flags ARMAS_TRANSA in let tb := has flags ARMAS_TRANSB in
  opcols ta A = oprows tb B -> sp_rows C = oprows ta A -> sp_cols C = opcols tb B -> sp_cols C <> 0 ->
  w_bytes w <> 0 -> armassp_bytes_needed sz (sp_rows C) (sp_cols C) (sp_nnz A * sp_nnz B / sp_cols C) (sp_kind C) <= sp_nbytes C ->
  armas_accum_need sz C <= armas_wbytes w ->
  let w' := snd (armas_wreserve_bytes w (armas_accum_need sz C)) in
  (ltr = true -> armas_accum_need sz C <= armas_wbytes w') ->
  (forall spa : accum T, alen (ac_v spa) = linelen C -> alen (ac_mark spa) = linelen C -> alen (ac_q spa) = linelen C -> ac_tail spa = 0 ->
     wp ((if ta then (if tb then (if kind_eqb (sp_kind C) CSC then mult_csc_tt K else mult_csr_tt K) else (if kind_eqb (sp_kind C) CSC then mult_csc_tn K else mult_csr_tn K))
          else (if tb then (if kind_eqb (sp_kind C) CSC then mult_csc_nt K else mult_csr_nt K) else (if kind_eqb (sp_kind C) CSC then mult_csc_nn K else mult_csr_nn K))) C alpha A B spa)
       L m (fun C' m' => m' = m /\ Q C')) ->
  exists C', armassp_multto_w K sz ltr C alpha A B flags w junk L m = Some (mkoutcome 0 0 (Some C') (Some w'), m) /\ Q C'.
Proof.
  intros T K sz ltr L m A B C alpha flags w junk Q ta tb E1 E2 E3 Hn Wb Cb Wn w' Wl H.
  assert (X : wp (armassp_multto_w K sz ltr C alpha A B flags w junk) L m (fun o m' => m' = m /\ exists C', o = mkoutcome 0 0 (Some C') (Some w') /\ Q C')).
  { unfold armassp_multto_w. destruct (trans_flags flags) as (-> & -> & ->). fold ta tb.
    assert (F1 : ta && tb || ta && negb tb = ta) by (destruct ta, tb; reflexivity). assert (F2 : ta && tb || negb ta && tb = tb) by (destruct ta, tb; reflexivity).
    rewrite F1, F2. unfold oprows, opcols in *. clearbody ta tb. rewrite <- E1, <- E2, <- E3, !Z.eqb_refl. cbn [negb andb].
    replace (w_bytes w =? 0) with false by lia. replace (sp_cols C =? 0) with false by lia.
    replace (sp_nbytes C <? armassp_bytes_needed sz (sp_rows C) (sp_cols C) (sp_nnz A * sp_nnz B / sp_cols C) (sp_kind C)) with false by lia.
    replace (armas_wbytes w <? armas_accum_need sz C) with false by lia.
    destruct (make_ok sz C (armas_wbytes (if ltr then w' else w)) junk ltac:(destruct ltr; auto)) as (spa & Em & G1 & G2 & G3 & G4).
    fold w'. rewrite Em. wbind. eapply wp_conseq; [apply (H spa G1 G2 G3 G4)|].
    intros C' m' (-> & HQ). apply wp_ret. split; [auto|]. exists C'. auto. }
  destruct X as (o & m' & R & -> & C' & -> & HQ). exists C'. auto.
Qed.

Section Kernels.
  Context {T : Type} (K : num T).
  Hypothesis HR : is_ring K.
  Variables (L : Z -> bool) (m : Z -> T) (A B C : sparse T) (alpha : T) (spa : accum T).
  Hypothesis VA : valid A. Hypothesis VB : valid B. Hypothesis SC : storage C.
  Hypothesis KA : sp_kind A = sp_kind C. Hypothesis KB : sp_kind B = sp_kind C.
  Hypothesis E1 : alen (ac_v spa) = linelen C. Hypothesis E2 : alen (ac_mark spa) = linelen C. Hypothesis E3 : alen (ac_q spa) = linelen C. Hypothesis E4 : ac_tail spa = 0.

  Local Notation done ta tb := (fun C' m' => m' = m /\ holds K C C' (fun i j => mul K alpha (prod_value K ta tb A B i j)) (prod_stored ta tb A B)).

  Lemma kind_not : sp_kind C <> COO. Proof. destruct SC. assumption. Qed.

  Local Lemma LA : lines A (nlines A) (linelen A). Proof. apply valid_linesr; auto. rewrite KA. apply kind_not. Qed.
  Local Lemma LB : lines B (nlines B) (linelen B). Proof. apply valid_linesr; auto. rewrite KB. apply kind_not. Qed.

  (* element and pattern by rows *)
  Lemma vR : forall (M : sparse T) i j, valid M -> sp_kind M = CSR -> 0 <= i < sp_rows M -> 0 <= j < sp_cols M -> value K M i j = lval K M i j.
  Proof. intros M i j V E Hi Hj. rewrite (value_lines K HR) by (auto; congruence). rewrite E. reflexivity. Qed.
  Lemma vC : forall (M : sparse T) i j, valid M -> sp_kind M = CSC -> 0 <= i < sp_rows M -> 0 <= j < sp_cols M -> value K M i j = lval K M j i.
  Proof. intros M i j V E Hi Hj. rewrite (value_lines K HR) by (auto; congruence). rewrite E. reflexivity. Qed.
  Lemma sR : forall (M : sparse T) i j, valid M -> sp_kind M = CSR -> 0 <= i < sp_rows M -> in_line M i j -> stored M i j.
  Proof.
    intros M i j V E Hi H. apply stored_in_line; auto; try congruence; [|rewrite E; exact H].
    destruct H as (p & Hp & <-). pose proof (ln_ix _ _ _ (valid_linesr M V ltac:(congruence)) i p) as X. unfold nlines, linelen in X. rewrite E in X. auto.
  Qed.
  Lemma sC : forall (M : sparse T) i j, valid M -> sp_kind M = CSC -> 0 <= j < sp_cols M -> in_line M j i -> stored M i j.
  Proof.
    intros M i j V E Hi H. apply stored_in_line; auto; try congruence; [|rewrite E; exact H].
    destruct H as (p & Hp & <-). pose proof (ln_ix _ _ _ (valid_linesr M V ltac:(congruence)) j p) as X. unfold nlines, linelen in X. rewrite E in X. auto.
  Qed.
  (* the indices of a line lie within it *)
  Lemma in_range : forall (M : sparse T) l c, valid M -> sp_kind M <> COO -> 0 <= l < nlines M -> in_line M l c -> 0 <= c < linelen M.
  Proof. intros M l c V Hk Hl (p & Hp & <-). apply (ln_ix _ _ _ (valid_linesr M V Hk) l p); auto. Qed.

  Section Rows.
    Hypothesis KC : sp_kind C = CSR.
    Local Lemma rA : nlines A = sp_rows A /\ linelen A = sp_cols A. Proof. unfold nlines, linelen. rewrite KA, KC. auto. Qed.
    Local Lemma rB : nlines B = sp_rows B /\ linelen B = sp_cols B. Proof. unfold nlines, linelen. rewrite KB, KC. auto. Qed.
    Local Lemma rC : nlines C = sp_rows C /\ linelen C = sp_cols C. Proof. unfold nlines, linelen. rewrite KC. auto. Qed.

    Lemma csr_nn_ok : sp_cols A = sp_rows B -> sp_rows C = sp_rows A -> sp_cols C = sp_cols B -> alpha = one K -> room_for C (prod_stored false false A B) ->
      wp (mult_csr_nn K C alpha A B spa) L m (done false false).
    Proof.
      intros H1 H2 H3 Ha RO. pose proof rA as [a1 a2]. pose proof rB as [b1 b2]. pose proof rC as [c1 c2]. pose proof LA as HA. pose proof LB as HB. unfold mult_csr_nn. rewrite <- Ha.
      apply (frame_ok T K HR L m alpha (prod_value K false false A B) (prod_stored false false A B) C); auto; try lia.
      intros i Hi. rewrite KC. eapply adds_ext.
      - apply (adds_mult_scatter K HR L (linelen C) A B (nlines A) (linelen A) (nlines B)); auto; try lia. replace (linelen C) with (linelen B) by lia. exact HB.
      - intros c Hc. cbn [sw]. unfold prod_value, opcols, opvalue. rewrite a2. apply vsum_ext. intros k Hk. rewrite !vR by (try congruence; auto; lia). reflexivity.
      - intros c Hc (k & X1 & X2). exists k. pose proof (in_range A i k VA ltac:(congruence) ltac:(lia) X1). split; apply sR; auto; try congruence; lia.
    Qed.

    Lemma csr_nt_ok : sp_cols A = sp_cols B -> sp_rows C = sp_rows A -> sp_cols C = sp_rows B -> strictly_ascending A -> strictly_ascending B -> room_for C (prod_stored false true A B) ->
      wp (mult_csr_nt K C alpha A B spa) L m (done false true).
    Proof.
      intros H1 H2 H3 SA SB RO. pose proof rA as [a1 a2]. pose proof rB as [b1 b2]. pose proof rC as [c1 c2]. pose proof LA as HA. pose proof LB as HB. unfold mult_csr_nt.
      apply (frame_ok T K HR L m alpha (prod_value K false true A B) (prod_stored false true A B) C); auto; try lia.
      intros i Hi. rewrite KC. rewrite <- b1. eapply adds_ext.
      - apply (adds_mult_dots K HR L (linelen C) false A B (nlines A) (nlines B) (linelen A)); auto using asc_sorted; try lia. replace (linelen A) with (linelen B) by lia. exact HB.
      - intros c Hc. cbn [sw]. unfold prod_value, opcols, opvalue. rewrite a2. apply vsum_ext. intros k Hk. rewrite !vR by (try congruence; auto; lia). reflexivity.
      - intros c Hc (k & X1 & X2). exists k. pose proof (in_range A i k VA ltac:(congruence) ltac:(lia) X1). split; apply sR; auto; try congruence; lia.
    Qed.

    Lemma csr_tn_ok : sp_rows A = sp_rows B -> sp_rows C = sp_cols A -> sp_cols C = sp_cols B -> sp_rows A = sp_cols A -> strictly_ascending A -> sp_nnz A < sp_size A ->
      room_for C (prod_stored true false A B) -> wp (mult_csr_tn K C alpha A B spa) L m (done true false).
    Proof.
      intros H1 H2 H3 SQ SA NA RO. pose proof rA as [a1 a2]. pose proof rB as [b1 b2]. pose proof rC as [c1 c2]. pose proof LA as HA. pose proof LB as HB. unfold mult_csr_tn.
      apply (frame_ok T K HR L m alpha (prod_value K true false A B) (prod_stored true false A B) C); auto; try lia.
      intros i Hi. rewrite KC. rewrite <- a1. eapply adds_ext.
      - apply (adds_mult_across K HR L (linelen C) A B (nlines A) (linelen A)); auto; try exact (asc_sorted A SA); try (apply (nnz_spare A VA); [congruence|exact NA]).
        replace (linelen C) with (linelen B) by lia. replace (nlines A) with (nlines B) by lia. exact HB.
      - intros c Hc. cbn [sw]. unfold prod_value, opcols, opvalue. rewrite a1. apply vsum_ext. intros k Hk. rewrite !vR by (try congruence; auto; lia). reflexivity.
      - intros c Hc (k & Hk & X1 & X2). exists k. split; apply sR; auto; try congruence; lia.
    Qed.

    Lemma csr_tt_ok : sp_rows A = sp_cols B -> sp_rows C = sp_cols A -> sp_cols C = sp_rows B -> sp_rows A = sp_cols A -> strictly_ascending A -> sp_nnz A < sp_size A ->
      room_for C (prod_stored true true A B) -> wp (mult_csr_tt K C alpha A B spa) L m (done true true).
    Proof.
      intros H1 H2 H3 SQ SA NA RO. pose proof rA as [a1 a2]. pose proof rB as [b1 b2]. pose proof rC as [c1 c2]. pose proof LA as HA. pose proof LB as HB. unfold mult_csr_tt.
      apply (frame_ok T K HR L m alpha (prod_value K true true A B) (prod_stored true true A B) C); auto; try lia.
      intros i Hi. rewrite KC. eapply adds_ext.
      - apply (adds_mult_tt K HR L (linelen C) A B (nlines A) (linelen A) (nlines B) (linelen B)); auto; try lia; try exact (asc_sorted A SA); try (apply (nnz_spare A VA); [congruence|exact NA]).
      - intros c Hc. cbn [sw]. unfold prod_value, opcols, opvalue. replace (linelen B) with (sp_rows A) by lia. apply vsum_ext. intros k Hk. rewrite !vR by (try congruence; auto; lia). apply (Rmul_comm HR).
      - intros c Hc (k & X1 & X2). exists k. pose proof (in_range B c k VB ltac:(congruence) ltac:(lia) X1). split; apply sR; auto; try congruence; lia.
    Qed.
  End Rows.

  Section Columns.
    Hypothesis KC : sp_kind C = CSC.
    Local Lemma rA' : nlines A = sp_cols A /\ linelen A = sp_rows A. Proof. unfold nlines, linelen. rewrite KA, KC. auto. Qed.
    Local Lemma rB' : nlines B = sp_cols B /\ linelen B = sp_rows B. Proof. unfold nlines, linelen. rewrite KB, KC. auto. Qed.
    Local Lemma rC' : nlines C = sp_cols C /\ linelen C = sp_rows C. Proof. unfold nlines, linelen. rewrite KC. auto. Qed.

    Lemma csc_nn_ok : sp_cols A = sp_rows B -> sp_rows C = sp_rows A -> sp_cols C = sp_cols B -> room_for C (prod_stored false false A B) ->
      wp (mult_csc_nn K C alpha A B spa) L m (done false false).
    Proof.
      intros H1 H2 H3 RO. pose proof rA' as [a1 a2]. pose proof rB' as [b1 b2]. pose proof rC' as [c1 c2]. pose proof LA as HA. pose proof LB as HB. unfold mult_csc_nn.
      apply (frame_ok T K HR L m alpha (prod_value K false false A B) (prod_stored false false A B) C); auto; try lia.
      intros i Hi. rewrite KC. eapply adds_ext.
      - apply (adds_mult_scatter K HR L (linelen C) B A (nlines B) (linelen B) (nlines A)); auto; try lia. replace (linelen C) with (linelen A) by lia. exact HA.
      - intros c Hc. cbn [sw]. unfold prod_value, opcols, opvalue. replace (linelen B) with (sp_cols A) by lia. apply vsum_ext. intros k Hk. rewrite !vC by (try congruence; auto; lia). apply (Rmul_comm HR).
      - intros c Hc (k & X1 & X2). exists k. pose proof (in_range B i k VB ltac:(congruence) ltac:(lia) X1). split; apply sC; auto; try congruence; lia.
    Qed.

    Lemma csc_tn_ok : sp_rows A = sp_rows B -> sp_rows C = sp_cols A -> sp_cols C = sp_cols B -> strictly_ascending A -> strictly_ascending B -> room_for C (prod_stored true false A B) ->
      wp (mult_csc_tn K C alpha A B spa) L m (done true false).
    Proof.
      intros H1 H2 H3 SA SB RO. pose proof rA' as [a1 a2]. pose proof rB' as [b1 b2]. pose proof rC' as [c1 c2]. pose proof LA as HA. pose proof LB as HB. unfold mult_csc_tn.
      apply (frame_ok T K HR L m alpha (prod_value K true false A B) (prod_stored true false A B) C); auto; try lia.
      intros i Hi. rewrite KC. rewrite <- a1. eapply adds_ext.
      - apply (adds_mult_dots K HR L (linelen C) true B A (nlines B) (nlines A) (linelen B)); auto using asc_sorted; try lia. replace (linelen B) with (linelen A) by lia. exact HA.
      - intros c Hc. cbn [sw]. unfold prod_value, opcols, opvalue. replace (linelen B) with (sp_rows A) by lia. apply vsum_ext. intros k Hk. rewrite !vC by (try congruence; auto; lia). apply (Rmul_comm HR).
      - intros c Hc (k & X1 & X2). exists k. pose proof (in_range B i k VB ltac:(congruence) ltac:(lia) X1). split; apply sC; auto; try congruence; lia.
    Qed.

    Lemma csc_nt_ok : sp_cols A = sp_cols B -> sp_rows C = sp_rows A -> sp_cols C = sp_rows B -> sp_rows B = sp_cols B -> strictly_ascending B -> sp_nnz B < sp_size B ->
      room_for C (prod_stored false true A B) -> wp (mult_csc_nt K C alpha A B spa) L m (done false true).
    Proof.
      intros H1 H2 H3 SQ SB NB RO. pose proof rA' as [a1 a2]. pose proof rB' as [b1 b2]. pose proof rC' as [c1 c2]. pose proof LA as HA. pose proof LB as HB. unfold mult_csc_nt.
      apply (frame_ok T K HR L m alpha (prod_value K false true A B) (prod_stored false true A B) C); auto; try lia.
      intros i Hi. rewrite KC. rewrite <- b1. eapply adds_ext.
      - apply (adds_mult_across K HR L (linelen C) B A (nlines B) (linelen B)); auto; try exact (asc_sorted B SB); try (apply (nnz_spare B VB); [congruence|exact NB]).
        replace (linelen C) with (linelen A) by lia. replace (nlines B) with (nlines A) by lia. exact HA.
      - intros c Hc. cbn [sw]. unfold prod_value, opcols, opvalue. replace (nlines B) with (sp_cols A) by lia. apply vsum_ext. intros k Hk. rewrite !vC by (try congruence; auto; lia). apply (Rmul_comm HR).
      - intros c Hc (k & Hk & X1 & X2). exists k. split; apply sC; auto; try congruence; lia.
    Qed.

    Lemma csc_tt_ok : sp_rows A = sp_cols B -> sp_rows C = sp_cols A -> sp_cols C = sp_rows B -> sp_cols A = sp_rows B -> strictly_ascending B -> sp_nnz B < sp_size B ->
      room_for C (prod_stored true true A B) -> wp (mult_csc_tt K C alpha A B spa) L m (done true true).
    Proof.
      intros H1 H2 H3 SQ SB NB RO. pose proof rA' as [a1 a2]. pose proof rB' as [b1 b2]. pose proof rC' as [c1 c2]. pose proof LA as HA. pose proof LB as HB. unfold mult_csc_tt.
      apply (frame_ok T K HR L m alpha (prod_value K true true A B) (prod_stored true true A B) C); auto; try lia.
      intros i Hi. rewrite KC. eapply adds_ext.
      - apply (adds_mult_tt K HR L (linelen C) B A (nlines B) (linelen B) (nlines A) (linelen A)); auto; try lia; try exact (asc_sorted B SB); try (apply (nnz_spare B VB); [congruence|exact NB]).
      - intros c Hc. cbn [sw]. unfold prod_value, opcols, opvalue. replace (linelen A) with (sp_rows A) by lia. apply vsum_ext. intros k Hk. rewrite !vC by (try congruence; auto; lia). reflexivity.
      - intros c Hc (k & X1 & X2). exists k. pose proof (in_range A c k VA ltac:(congruence) ltac:(lia) X1). split; apply sC; auto; try congruence; lia.
    Qed.
  End Columns.
End Kernels.

(* C = alpha*op(A)*op(B): the elements are those of the product, whatever C and
   the workspace held before.  Transposed operands need ascending lines and a
   free place; ltr tells in which order the compiler evaluates two arguments *)
Theorem C42_multto_partial : forall T (K : num T), is_ring K -> forall sz ltr L m (A B C : sparse T) alpha flags w junk,
  let ta := has flags ARMAS_TRANSA in let tb := has flags ARMAS_TRANSB in
  valid A -> valid B -> storage C -> sp_kind A = sp_kind C -> sp_kind B = sp_kind C ->
  opcols ta A = oprows tb B -> sp_rows C = oprows ta A -> sp_cols C = opcols tb B -> sp_cols C <> 0 ->
  right_variant K (sp_kind C) ta tb alpha A B ->
  (ta = true \/ tb = true -> strictly_ascending A /\ strictly_ascending B /\ sp_nnz A < sp_size A /\ sp_nnz B < sp_size B) ->
  w_bytes w <> 0 -> armassp_bytes_needed sz (sp_rows C) (sp_cols C) (sp_nnz A * sp_nnz B / sp_cols C) (sp_kind C) <= sp_nbytes C ->
  armas_accum_need sz C <= armas_wbytes w ->
  let w' := snd (armas_wreserve_bytes w (armas_accum_need sz C)) in
  (ltr = true -> armas_accum_need sz C <= armas_wbytes w') ->
  room_for C (prod_stored ta tb A B) ->
  exists C', armassp_multto_w K sz ltr C alpha A B flags w junk L m = Some (mkoutcome 0 0 (Some C') (Some w'), m) /\
    holds K C C' (fun i j => mul K alpha (prod_value K ta tb A B i j)) (prod_stored ta tb A B).
Proof.
  intros T K HR sz ltr L m A B C alpha flags w junk ta tb VA VB SC KA KB H1 H2 H3 Hn RV AS Wb Cb Wn w' Wl RO.
  apply multto_run; auto. intros spa E1 E2 E3 E4. fold ta tb. clearbody ta tb. pose proof SC as (HK & _). unfold oprows, opcols in *.
  unfold right_variant in RV. destruct (sp_kind C) eqn:KC; try congruence; cbn [kind_eqb]; destruct RV as [RV1 RV2]; destruct ta, tb;
    try (destruct (AS ltac:(auto)) as (SA & SB & NA & NB)).
  - apply csc_tt_ok; auto; congruence.
  - apply csc_tn_ok; auto; congruence.
  - apply csc_nt_ok; auto; congruence.
  - apply csc_nn_ok; auto; congruence.
  - apply csr_tt_ok; auto; congruence.
  - apply csr_tn_ok; auto; congruence.
  - apply csr_nt_ok; auto; congruence.
  - apply csr_nn_ok; auto; congruence.
Qed.
Print Assumptions C42_multto_partial.

(* Refusals and the workspace query leave everything alone *)
Theorem C42_refused : forall T (K : num T) sz ltr L m (A B C : sparse T) alpha flags w junk,
  let ta := has flags ARMAS_TRANSA in let tb := has flags ARMAS_TRANSB in
  let fits := opcols ta A = oprows tb B /\ sp_rows C = oprows ta A /\ sp_cols C = opcols tb B in
  (~ fits -> armassp_multto_w K sz ltr C alpha A B flags w junk L m = Some (mkoutcome (-1) ARMAS_EINVAL (Some C) (Some w), m)) /\
  (fits -> w_bytes w = 0 ->
     armassp_multto_w K sz ltr C alpha A B flags w junk L m = Some (mkoutcome 0 0 (Some C) (Some (mkwbuf (w_buf w) (armas_accum_need sz C) (w_offset w))), m)) /\
  (fits -> w_bytes w <> 0 -> sp_cols C <> 0 -> sp_nbytes C < armassp_bytes_needed sz (sp_rows C) (sp_cols C) (sp_nnz A * sp_nnz B / sp_cols C) (sp_kind C) ->
     armassp_multto_w K sz ltr C alpha A B flags w junk L m = Some (mkoutcome (-2) ARMAS_ESIZE (Some C) (Some w), m)) /\
  (fits -> w_bytes w <> 0 -> sp_cols C <> 0 -> armassp_bytes_needed sz (sp_rows C) (sp_cols C) (sp_nnz A * sp_nnz B / sp_cols C) (sp_kind C) <= sp_nbytes C ->
     armas_wbytes w < armas_accum_need sz C ->
     armassp_multto_w K sz ltr C alpha A B flags w junk L m = Some (mkoutcome (-3) ARMAS_EWORK (Some C) (Some w), m)).
Proof.
  intros T K sz ltr L m A B C alpha flags w junk ta tb fits. unfold fits, oprows, opcols. clear fits. unfold armassp_multto_w. destruct (trans_flags flags) as (-> & -> & ->). fold ta tb. clearbody ta tb.
  assert (F1 : ta && tb || ta && negb tb = ta) by (destruct ta, tb; reflexivity). assert (F2 : ta && tb || negb ta && tb = tb) by (destruct ta, tb; reflexivity).
  rewrite F1, F2. split; [|split; [|split]].
  - intro H. match goal with |- context [if negb ?b then _ else _] => destruct b eqn:E end; [|reflexivity]. exfalso. apply H. rewrite !andb_true_iff, !Z.eqb_eq in E. tauto.
  - intros (E1 & E2 & E3) W. rewrite <- E1, <- E2, <- E3, !Z.eqb_refl, W. reflexivity.
  - intros (E1 & E2 & E3) W N S. rewrite <- E1, <- E2, <- E3, !Z.eqb_refl. cbn [negb andb]. replace (w_bytes w =? 0) with false by lia. replace (sp_cols C =? 0) with false by lia.
    apply Z.ltb_lt in S. rewrite S. reflexivity.
  - intros (E1 & E2 & E3) W N S V. rewrite <- E1, <- E2, <- E3, !Z.eqb_refl. cbn [negb andb]. replace (w_bytes w =? 0) with false by lia. replace (sp_cols C =? 0) with false by lia.
    apply Z.ltb_ge in S. rewrite S. apply Z.ltb_lt in V. rewrite V. reflexivity.
Qed.
Print Assumptions C42_refused.

Lemma flat_nil : forall A B (f : A -> list B) l, (forall x, f x = []) -> flat_map f l = [].
Proof. intros A B f l H. induction l; cbn; auto. rewrite H. auto. Qed.

(* armassp_mult, the form that returns a new matrix, computes nothing: whatever
   it returns has no elements *)
Theorem C42_mult_empty_refuted : forall T (K : num T) sz mem_ok L m (A B : sparse T) alpha flags C m',
  armassp_mult K sz mem_ok alpha A B flags L m = Some (Some C, m') ->
  m' = m /\ sp_nnz C = 0 /\ (forall i j, ~ stored C i j) /\ forall i j, value K C i j = zero K.
Proof.
  intros T K sz mem_ok L m A B alpha flags C m' H. unfold armassp_mult in H.
  destruct (negb (kind_eqb (sp_kind A) (sp_kind B)) || kind_eqb (sp_kind A) COO) eqn:E1; [discriminate H|].
  destruct (sp_cols A =? 0); [discriminate H|]. injection H as H <-.
  apply orb_false_iff in E1. destruct E1 as [E1 E2]. unfold armassp_new, armassp_init in H.
  assert (Hk : sp_kind A <> COO) by (intro X; rewrite X in E2; discriminate E2).
  assert (X : sp_nnz C = 0 /\ entries C = []).
  { destruct ((_ =? 0) || _ || _) in H.
    - injection H as <-. split; reflexivity.
    - destruct (mem_ok _); [|discriminate H]. injection H as <-. unfold armassp_make. destruct (sp_kind A); try congruence; (split; [reflexivity|]);
        unfold entries; cbn [sp_kind sp_nptr]; apply flat_nil; intro x; unfold line_of; cbn [sp_ptr aget]; rewrite zr_nil by lia; reflexivity. }
  destruct X as [X1 X2]. split; [reflexivity|]. split; [exact X1|]. split; intros i j.
  - unfold stored. rewrite X2. intros [].
  - unfold value. rewrite X2. reflexivity.
Qed.
Print Assumptions C42_mult_empty_refuted.

(* concrete matrices *)
Definition sm (k : spkind) (r c size : Z) (es ps xs : list Z) : sparse Z :=
  mksparse (mkarr size (fun p => nth (Z.to_nat p) es 0)) (noarr (coo0 Znum)) r c (Z.of_nat (length es))
    (mkarr (Z.of_nat (length ps)) (fun p => nth (Z.to_nat p) ps 0)) (mkarr size (fun p => nth (Z.to_nat p) xs 0)) (Z.of_nat (length ps) - 1) size k 1000.
Definition sm_w : wbuf := mkwbuf 1 64 0.
Definition sm_w' : wbuf := snd (armas_wreserve_bytes sm_w (armas_accum_need 8 (sa_C CSR 9))).

(* with M = [1 0; 4 6]: M*M = [1 0; 28 36], M'*M = [17 24; 24 36], M*M' = [1 4; 4 52],
   M'*M' = [1 28; 0 36] *)
Definition sm_is (k : spkind) (alpha flags a b c d : Z) : Prop :=
  exists C', armassp_multto_w Znum 8 true (sa_C k 9) alpha (sa_B k) (sa_B k) flags sm_w sa_junk sv_L sv_m = Some (mkoutcome 0 0 (Some C') (Some sm_w'), sv_m) /\
    value Znum C' 0 0 = a /\ value Znum C' 0 1 = b /\ value Znum C' 1 0 = c /\ value Znum C' 1 1 = d.
Lemma prod_in : forall T ta tb (A B C : sparse T) i j, valid A -> valid B -> sp_kind A <> COO -> sp_kind B <> COO -> sp_rows C = oprows ta A -> sp_cols C = opcols tb B ->
  prod_stored ta tb A B i j -> 0 <= i < sp_rows C /\ 0 <= j < sp_cols C.
Proof.
  intros T ta tb A B C i j VA VB KA KB -> -> (k & H1 & H2). destruct ta, tb; unfold opstored, oprows, opcols in *; apply stored_in in H1; auto; apply stored_in in H2; auto; tauto.
Qed.

Example C42_nonvacuous :
  (forall k, k <> COO -> valid (sa_B k) /\ storage (sa_C k 9) /\ strictly_ascending (sa_B k) /\ sp_nnz (sa_B k) < sp_size (sa_B k) /\
     (forall ta tb, right_variant Znum k ta tb 1 (sa_B k) (sa_B k) /\ room_for (sa_C k 9) (prod_stored ta tb (sa_B k) (sa_B k))) /\
     armassp_bytes_needed 8 2 2 (3 * 3 / 2) k <= sp_nbytes (sa_C k 9) /\
     armas_accum_need 8 (sa_C k 9) <= armas_wbytes sm_w /\ armas_accum_need 8 (sa_C k 9) <= armas_wbytes sm_w' /\
     sm_w' = snd (armas_wreserve_bytes sm_w (armas_accum_need 8 (sa_C k 9)))) /\
  sm_is CSR 1 0 1 0 28 36 /\ sm_is CSC 2 0 2 0 56 72 /\
  sm_is CSR 2 ARMAS_TRANSA 34 48 48 72 /\ sm_is CSC 2 ARMAS_TRANSA 34 48 48 72 /\
  sm_is CSR 2 ARMAS_TRANSB 2 8 8 104 /\ sm_is CSC 2 ARMAS_TRANSB 2 8 8 104 /\
  sm_is CSR 2 (Z.lor ARMAS_TRANSA ARMAS_TRANSB) 2 56 0 72 /\ sm_is CSC 2 (Z.lor ARMAS_TRANSA ARMAS_TRANSB) 2 56 0 72.
Proof.
  split.
  { intros k Hk. pose proof (sa_B_ok k Hk) as (H2 & H3). split; [assumption|]. split; [apply sa_C_ok; auto; lia|]. split; [assumption|]. split; [cbn; lia|]. split.
    { intros ta tb. split; [destruct k; cbn; auto; congruence|]. apply room_all; try (destruct k; cbn; lia). intros i j H.
      apply (prod_in Z ta tb (sa_B k) (sa_B k) (sa_C k 9)) in H; auto; destruct k, ta, tb; try reflexivity; congruence. }
    split; [destruct k; vm_compute; congruence|]. split; [destruct k; vm_compute; congruence|]. split; [destruct k; vm_compute; congruence|]. destruct k; vm_compute; reflexivity. }
  repeat match goal with |- sm_is _ _ _ _ _ _ _ /\ _ => split end; unfold sm_is; eexists; conj.
Qed.

(* row-compressed, nothing transposed: alpha is ignored *)
Theorem C42_alpha_refuted : sm_is CSR 2 0 1 0 28 36.
Proof. unfold sm_is. eexists. conj. Qed.
Print Assumptions C42_alpha_refuted.

Definition sm_C (k : spkind) (r c : Z) : sparse Z := armassp_make Znum 8 r c 12 k.
Definition sm_run (A B C : sparse Z) (flags : Z) : option (option (list (Z * Z * Z))) :=
  match armassp_multto_w Znum 8 true C 1 A B flags sm_w sa_junk sv_L sv_m with
  | Some (mkoutcome 0 0 (Some C') _, _) => Some (if aget (sp_ptr C') (sp_nptr C') =? sp_nnz C' then Some (entries C') else None)
  | Some _ => Some None
  | None => None
  end.
(* [3 4] and [5 6] as 1 by 2 matrices, [7] as 1 by 1, [2; 1] as 2 by 1 *)
Definition sm_34 k := match k with CSR => sm k 1 2 4 [3; 4] [0; 2] [0; 1] | _ => sm k 1 2 4 [3; 4] [0; 1; 2] [0; 0] end.
Definition sm_21 k := match k with CSR => sm k 2 1 4 [2; 1] [0; 1; 2] [0; 0] | _ => sm k 2 1 4 [2; 1] [0; 2] [0; 1] end.
Definition sm_7 k := sm k 1 1 4 [7] [0; 1] [0].
Lemma sm_ok : forall k, k <> COO -> valid (sm_34 k) /\ valid (sm_21 k) /\ valid (sm_7 k).
Proof.
  intros k Hk. destruct k; try congruence; (repeat split); cbn; try lia; intros;
    try match goal with |- context [match Z.to_nat ?p with _ => _ end < _] => destruct (Z.to_nat p) as [|[|[|]]]; lia
        | |- 0 <= match Z.to_nat ?p with _ => _ end => destruct (Z.to_nat p) as [|[|[|]]]; lia
        | H : 0 <= ?j < _ |- match Z.to_nat ?j with _ => _ end <= _ => assert (E : j = 0 \/ j = 1) by lia; destruct E; subst; [vm_compute; congruence|first [lia|vm_compute; congruence]] end.
Qed.
(* [3 4]'*[7] = [21; 28]; [7]*[2; 1]' = [14 7]; [2; 1]'*[3 4]' = [10]: elements are
   lost or land elsewhere although 0 is returned, or the accesses leave the arrays *)
Theorem C42_shape_refuted :
  (prod_value Znum true false (sm_34 CSR) (sm_7 CSR) 1 0 = 28 /\ sm_run (sm_34 CSR) (sm_7 CSR) (sm_C CSR 2 1) ARMAS_TRANSA = Some (Some [(0, 0, 21)])) /\
  (prod_value Znum false true (sm_7 CSC) (sm_21 CSC) 0 0 = 14 /\ sm_run (sm_7 CSC) (sm_21 CSC) (sm_C CSC 1 2) ARMAS_TRANSB = Some (Some [(0, 1, 14)])) /\
  (prod_value Znum true true (sm_21 CSR) (sm_34 CSR) 0 0 = 10 /\ sm_run (sm_21 CSR) (sm_34 CSR) (sm_C CSR 1 1) (Z.lor ARMAS_TRANSA ARMAS_TRANSB) = None) /\
  (prod_value Znum true true (sm_34 CSC) (sm_7 CSC) 1 0 = 28 /\ sm_run (sm_34 CSC) (sm_7 CSC) (sm_C CSC 2 1) (Z.lor ARMAS_TRANSA ARMAS_TRANSB) = Some (Some [(0, 0, 21)])).
Proof. conj. Qed.
Print Assumptions C42_shape_refuted.

(* a workspace of the size the query gives: whether the product is computed
   depends on the order in which the compiler evaluates two arguments; and what
   was reserved stays reserved, so that a second call with the same workspace is
   refused *)
Definition sm_q : wbuf := mkwbuf 1 (armas_accum_need 8 (sa_C CSR 9)) 0.
Theorem C42_workspace_refuted :
  armassp_multto_w Znum 8 true (sa_C CSR 9) 1 (sa_B CSR) (sa_B CSR) 0 (mkwbuf 1 0 0) sa_junk sv_L sv_m = Some (mkoutcome 0 0 (Some (sa_C CSR 9)) (Some sm_q), sv_m) /\
  armassp_multto_w Znum 8 true (sa_C CSR 9) 1 (sa_B CSR) (sa_B CSR) 0 sm_q sa_junk sv_L sv_m = None /\
  exists C' w', armassp_multto_w Znum 8 false (sa_C CSR 9) 1 (sa_B CSR) (sa_B CSR) 0 sm_q sa_junk sv_L sv_m = Some (mkoutcome 0 0 (Some C') (Some w'), sv_m) /\
    armassp_multto_w Znum 8 false (sa_C CSR 9) 1 (sa_B CSR) (sa_B CSR) 0 w' sa_junk sv_L sv_m = Some (mkoutcome (-3) ARMAS_EWORK (Some (sa_C CSR 9)) (Some w'), sv_m).
Proof. do 2 (split; [vm_compute; reflexivity|]). eexists. exists (snd (armas_wreserve_bytes sm_q (armas_accum_need 8 (sa_C CSR 9)))). split; [vm_compute; reflexivity|vm_compute; reflexivity]. Qed.
Print Assumptions C42_workspace_refuted.

(* a product without columns divides by zero *)
Theorem C42_empty_refuted : forall T (K : num T) sz ltr L m (A B C : sparse T) alpha flags w junk,
  let ta := has flags ARMAS_TRANSA in let tb := has flags ARMAS_TRANSB in
  opcols ta A = oprows tb B -> sp_rows C = oprows ta A -> sp_cols C = opcols tb B -> sp_cols C = 0 -> w_bytes w <> 0 ->
  armassp_multto_w K sz ltr C alpha A B flags w junk L m = None.
Proof.
  intros T K sz ltr L m A B C alpha flags w junk ta tb E1 E2 E3 E4 W. unfold oprows, opcols in *. unfold armassp_multto_w. destruct (trans_flags flags) as (-> & -> & ->). fold ta tb. clearbody ta tb.
  assert (F1 : ta && tb || ta && negb tb = ta) by (destruct ta, tb; reflexivity). assert (F2 : ta && tb || negb ta && tb = tb) by (destruct ta, tb; reflexivity).
  rewrite F1, F2, <- E1, <- E2, <- E3, E4, !Z.eqb_refl. cbn [negb andb]. replace (w_bytes w =? 0) with false by lia. reflexivity.
Qed.
Print Assumptions C42_empty_refuted.
