(* Properties_SpAcc.v: properties C41 and C42, sums and products of compressed
   matrices. *)
From Coq Require Import ZArith Lia List Bool Ring.
From Verif Require Import Mem MView MNum MFlags MBase MSparse MSpVec MSpAcc SpecView SpecNum SpecSparse SpecSpVec
  Hoare PSum PFrame PSparse PSpconv PSpVec PSpTrm PSpDiag PSpAcc PSpLines Inst Properties_SpVec Properties_SpDiag.
Import ListNotations.
Local Open Scope Z_scope.
Ltac lia := Lia.lia.

(* ------------------------------------------------------------------ statements *)

(* C has the arrays a compressed matrix of its shape and size needs; what they
   hold does not matter *)
Definition storage {T} (C : sparse T) : Prop :=
  sp_kind C <> COO /\ 0 <= sp_rows C /\ 0 <= sp_cols C /\ 0 <= sp_size C /\
  alen (sp_ptr C) = nlines C + 1 /\ alen (sp_v C) = sp_size C /\ alen (sp_ix C) = sp_size C.

(* C has room for the positions S and, unless there are none, one more *)
Definition room_for {T} (C : sparse T) (S : Z -> Z -> Prop) : Prop :=
  forall pl : list (Z * Z), NoDup pl -> (forall i j, In (i, j) pl -> S i j) -> pl = [] \/ Z.of_nat (length pl) < sp_size C.

(* C' is a proper matrix of the kind and shape of C with the elements f, which
   stores nothing outside S and no position twice *)
Definition holds {T} (K : num T) (C C' : sparse T) (f : Z -> Z -> T) (S : Z -> Z -> Prop) : Prop :=
  valid C' /\ no_duplicates C' /\ sp_kind C' = sp_kind C /\ sp_rows C' = sp_rows C /\ sp_cols C' = sp_cols C /\
  (forall i j, stored C' i j -> S i j) /\
  (forall i j, 0 <= i < sp_rows C -> 0 <= j < sp_cols C -> value K C' i j = f i j).

(* (line, index) of a position and back *)
Definition sw {X} (k : spkind) (f : Z -> Z -> X) (a b : Z) : X := match k with CSR => f a b | _ => f b a end.

Lemma entries_pairs : forall T (C : sparse T), sp_kind C <> COO -> sp_nptr C = nlines C ->
  map fst (entries C) = map (fun e => sw (sp_kind C) (fun i j => (i, j)) (fst e) (snd e)) (seg_pairs (aget (sp_ptr C)) (aget (sp_ix C)) (nlines C)).
Proof.
  intros T C Hk E. unfold entries, seg_pairs, line_of, sw, nlines in *. destruct (sp_kind C) eqn:EK; try congruence; rewrite E;
  rewrite !flat_map_concat_map, !concat_map, !map_map; f_equal; apply map_ext; intro j; rewrite !map_map; reflexivity.
Qed.

Lemma built_ok : forall T (K : num T), is_ring K -> forall alpha F S (C C' : sparse T), storage C ->
  built K (nlines C) (linelen C) alpha (sw (sp_kind C) F) (sw (sp_kind C) S) C C' ->
  holds K C C' (fun i j => mul K alpha (F i j)) S.
Proof.
  intros T K HR alpha F S C C' (SC & S1 & S2 & S6 & S3 & S4 & S5) [U1 U2 U3 U4 U5 U6 U7 U8 U9 U10 U11].
  destruct U1 as (v & ptr & ix & nnz & EC).
  assert (EK : sp_kind C' = sp_kind C) by (subst; reflexivity). assert (ER : sp_rows C' = sp_rows C) by (subst; reflexivity).
  assert (EL : sp_cols C' = sp_cols C) by (subst; reflexivity). assert (ES : sp_size C' = sp_size C) by (subst; reflexivity).
  assert (EN : sp_nptr C' = nlines C) by (subst; reflexivity).
  assert (E1 : nlines C' = nlines C) by (unfold nlines; rewrite EK, ER, EL; reflexivity).
  assert (E2 : linelen C' = linelen C) by (unfold linelen; rewrite EK, ER, EL; reflexivity).
  assert (NL : 0 <= nlines C) by (unfold nlines; destruct (sp_kind C); auto).
  assert (NN : 0 <= sp_nnz C').
  { rewrite <- U6, <- U5. clear - U7 NL. revert NL U7. generalize (nlines C). intros n Hn. pattern n. apply natlike_ind; auto; [lia|].
    intros k Hk IH H. unfold Z.succ in *. pose proof (H k ltac:(lia)). specialize (IH ltac:(intros; apply H; lia)). lia. }
  assert (V : valid C').
  { unfold valid. rewrite ER, EL, ES. do 2 (split; [auto|]). split; [|].
    - lia.
    - assert (X : sp_nptr C' = nlines C' /\ alen (sp_v C') = sp_size C /\ alen (sp_ix C') = sp_size C /\ alen (sp_ptr C') = nlines C' + 1 /\
        aget (sp_ptr C') 0 = 0 /\ aget (sp_ptr C') (nlines C') = sp_nnz C' /\ (forall j, 0 <= j < nlines C' -> aget (sp_ptr C') j <= aget (sp_ptr C') (j + 1)) /\
        (forall p, 0 <= p < sp_nnz C' -> 0 <= aget (sp_ix C') p < linelen C')).
      { rewrite E1, E2. do 7 (split; [assumption|]). intros p Hp.
        destruct (find_seg (aget (sp_ptr C')) (nlines C) p NL ltac:(lia)) as (j & Hj & Hp'). apply (U8 j p Hj Hp'). }
      destruct (sp_kind C'); try exact X. congruence. }
  assert (HK' : sp_kind C' <> COO) by congruence.
  split; [exact V|]. split; [|split; [exact EK|split; [exact ER|split; [exact EL|split]]]].
  - unfold no_duplicates. rewrite entries_pairs, E1 by (auto; congruence). apply FinFun.Injective_map_NoDup.
    + intros [a b] [c d]. cbn [fst snd]. unfold sw. destruct (sp_kind C'); intro X; inversion X; reflexivity.
    + apply seg_nodup; auto.
  - intros i j H. unfold stored in H. rewrite entries_pairs in H by (auto; congruence). apply in_map_iff in H as ([a b] & E & H).
    rewrite E1 in H. apply seg_in in H as (Ha & p & Hp & <-). cbn [fst snd] in E. destruct (U8 a p Ha Hp) as [X _].
    rewrite EK in E. unfold sw in *. destruct (sp_kind C); inversion E; subst; exact X.
  - intros i j Hi Hj. rewrite (value_lines K HR) by first [exact V|exact HK'|lia]. rewrite EK. unfold nlines, linelen, sw in *.
    destruct (sp_kind C); try congruence; rewrite U10 by lia; reflexivity.
Qed.

Lemma room_lines : forall T (C : sparse T) (S : Z -> Z -> Prop), room_for C S -> forall pl : list (Z * Z), NoDup pl ->
  (forall i k, In (i, k) pl -> 0 <= i < nlines C /\ 0 <= k < linelen C /\ sw (sp_kind C) S i k) -> pl = [] \/ Z.of_nat (length pl) < sp_size C.
Proof.
  intros T C S H pl N Hp. destruct (H (map (fun e => sw (sp_kind C) (fun i j => (i, j)) (fst e) (snd e)) pl)) as [X|X].
  - apply FinFun.Injective_map_NoDup; auto. intros [a b] [c d]. cbn [fst snd]. unfold sw. destruct (sp_kind C); intro X; inversion X; reflexivity.
  - intros i j Hin. apply in_map_iff in Hin as ([a b] & E & Hin). cbn [fst snd] in E. destruct (Hp a b Hin) as (_ & _ & X). unfold sw in *.
    destruct (sp_kind C); inversion E; subst; exact X.
  - left. destruct pl; [reflexivity|discriminate].
  - right. rewrite map_length in X. exact X.
Qed.

Lemma dim_linelen : forall T (C : sparse T), armas_accum_dim C = linelen C.
Proof. intros T C. unfold armas_accum_dim, linelen. destruct (sp_kind C); reflexivity. Qed.

(* the frame of the kernels, for the API *)
Lemma frame_ok : forall T (K : num T), is_ring K -> forall L m alpha F S (C : sparse T) body n last spa, storage C -> room_for C S ->
  n = nlines C -> last = nlines C ->
  alen (ac_v spa) = linelen C -> alen (ac_mark spa) = linelen C -> alen (ac_q spa) = linelen C -> ac_tail spa = 0 ->
  (forall i, 0 <= i < nlines C -> adds K L (linelen C) i (body i) (sw (sp_kind C) F i) (sw (sp_kind C) S i)) ->
  wp (spa_lines K C n alpha body last spa) L m (fun C' m' => m' = m /\ holds K C C' (fun i j => mul K alpha (F i j)) S).
Proof.
  intros T K HR L m alpha F S C body n last spa SC RO -> -> E1 E2 E3 E4 HB. pose proof SC as (S0 & S1 & S2 & S6 & S3 & S4 & S5).
  eapply wp_conseq.
  - apply (spa_lines_wp K HR L (nlines C) (linelen C) alpha (sw (sp_kind C) F) (sw (sp_kind C) S) C); auto.
    + unfold nlines; destruct (sp_kind C); auto.
    + apply room_lines. exact RO.
  - intros C' m' (-> & B). split; [auto|]. apply built_ok; auto.
Qed.

Section Facts.
  Context {T : Type} (K : num T).
  Hypothesis HR : is_ring K.
  Let HR' : ring_theory (zero K) (one K) (add K) (mul K) (sub K) (opp K) eq := HR.
  Add Ring KringF : HR'.

  Lemma one_l : forall x, mul K (one K) x = x.
  Proof. intros. ring. Qed.

  (* in terms of lines *)
  Lemma sw_value : forall (A : sparse T) k a b, valid A -> sp_kind A = k -> k <> COO -> 0 <= a < nlines A -> 0 <= b < linelen A ->
    sw k (value K A) a b = lval K A a b.
  Proof.
    intros A k a b V E Hk Ha Hb. unfold sw, nlines, linelen in *. rewrite E in *. destruct k; try congruence; rewrite (value_lines K HR) by (auto; congruence); rewrite E; reflexivity.
  Qed.
  Lemma sw_stored : forall (A : sparse T) k a b, valid A -> sp_kind A = k -> k <> COO -> 0 <= a < nlines A -> 0 <= b < linelen A ->
    in_line A a b -> sw k (stored A) a b.
  Proof.
    intros A k a b V E Hk Ha Hb H. unfold sw, nlines, linelen in *. rewrite E in *. destruct k; try congruence; apply stored_in_line; auto; try congruence; rewrite E; exact H.
  Qed.

  Lemma asc_sorted : forall (A : sparse T), strictly_ascending A -> sorted_lines A (nlines A).
  Proof. intros A H j p q Hj H1 H2 H3. apply (H j p q); auto. Qed.
  Lemma nnz_spare : forall (A : sparse T), valid A -> sp_kind A <> COO -> sp_nnz A < sp_size A -> spare A (nlines A).
  Proof.
    intros A V Hk H j Hj. pose proof V as (_ & _ & _ & V').
    assert (X : alen (sp_ix A) = sp_size A /\ aget (sp_ptr A) (nlines A) = sp_nnz A) by (destruct (sp_kind A); try congruence; tauto).
    destruct X as [X1 X2]. unfold P. pose proof (valid_mono A V Hk (j + 1) (nlines A) ltac:(lia) ltac:(lia)). lia.
  Qed.

  (* the accumulator made from a large enough block *)
  Lemma make_ok : forall sz (C : sparse T) len junk, armas_accum_need sz C <= len -> exists spa : accum T,
    armas_accum_make sz (armas_accum_dim C) len junk = Some spa /\ alen (ac_v spa) = linelen C /\ alen (ac_mark spa) = linelen C /\ alen (ac_q spa) = linelen C /\ ac_tail spa = 0.
  Proof.
    intros sz C len junk H. unfold armas_accum_make. unfold armas_accum_need in H. replace (len <? armas_accum_bytes sz (armas_accum_dim C)) with false by lia.
    eexists. split; [reflexivity|]. cbn. rewrite dim_linelen. auto.
  Qed.

  Lemma trans_flags : forall flags, let s := Z.land flags (Z.lor ARMAS_TRANSA ARMAS_TRANSB) in
    (s =? Z.lor ARMAS_TRANSA ARMAS_TRANSB) = (has flags ARMAS_TRANSA && has flags ARMAS_TRANSB) /\
    (s =? ARMAS_TRANSA) = (has flags ARMAS_TRANSA && negb (has flags ARMAS_TRANSB)) /\
    (s =? ARMAS_TRANSB) = (negb (has flags ARMAS_TRANSA) && has flags ARMAS_TRANSB).
  Proof.
    intros flags. cbn zeta. rewrite land_or. change ARMAS_TRANSA with (2 ^ 7). change ARMAS_TRANSB with (2 ^ 8). rewrite !has_bit, !land_bit by lia.
    destruct (Z.testbit flags 7), (Z.testbit flags 8); repeat split; reflexivity.
  Qed.
  Lemma wsetpos_same : forall w, armas_wsetpos w (armas_wpos w) = w.
  Proof. intros [a b c]. unfold armas_wsetpos, armas_wpos. cbn. destruct (c <? b); reflexivity. Qed.
  Lemma kind_refl : forall k, kind_eqb k k = true.
  Proof. destruct k; reflexivity. Qed.
End Facts.

(* ------------------------------------------------------------------ sums *)

Lemma addto_run : forall T (K : num T) sz L m (A B C : sparse T) alpha beta bits w junk (Q : sparse T -> Prop),
  sp_kind B = sp_kind A -> sp_rows B = sp_rows A -> sp_cols B = sp_cols A ->
  w_bytes w <> 0 -> armas_accum_need sz C <= armas_wbytes w ->
  (forall spa : accum T, alen (ac_v spa) = linelen C -> alen (ac_mark spa) = linelen C -> alen (ac_q spa) = linelen C -> ac_tail spa = 0 ->
     wp (if negb (has bits ARMAS_TRANSA) && has bits ARMAS_TRANSB then (if kind_eqb (sp_kind A) CSC then add_csc_nt K else add_csr_nt K) C alpha A beta B spa
         else if has bits ARMAS_TRANSA && negb (has bits ARMAS_TRANSB) then (if kind_eqb (sp_kind A) CSC then ret C else add_csr_tn K C alpha A beta B spa)
         else (if kind_eqb (sp_kind A) CSC then add_csc_nn K else add_csr_nn K) C alpha A beta B spa) L m (fun C' m' => m' = m /\ Q C')) ->
  exists C', armassp_addto_w K sz (Some C) alpha A beta B bits (Some w) junk L m = Some (mkoutcome 0 0 (Some C') (Some w), m) /\ Q C'.
Proof.
  intros T K sz L m A B C alpha beta bits w junk Q KB RB CB Wb Wn H.
  assert (X : wp (armassp_addto_w K sz (Some C) alpha A beta B bits (Some w) junk) L m (fun o m' => m' = m /\ exists C', o = mkoutcome 0 0 (Some C') (Some w) /\ Q C')).
  { unfold armassp_addto_w. rewrite KB, kind_refl, RB, CB, !Z.eqb_refl. cbn [negb andb].
    replace (w_bytes w =? 0) with false by lia. replace (armas_wbytes w <? armas_accum_need sz C) with false by lia.
    destruct (make_ok sz C (armas_wbytes w) junk Wn) as (spa & -> & E1 & E2 & E3 & E4).
    destruct (trans_flags bits) as (_ & -> & ->). wbind. eapply wp_conseq; [apply (H spa E1 E2 E3 E4)|].
    intros C' m' (-> & HQ). apply wp_ret. split; [auto|]. exists C'. rewrite wsetpos_same. auto. }
  destruct X as (o & m' & R & -> & C' & -> & HQ). exists C'. auto.
Qed.

Lemma holds_one : forall T (K : num T), is_ring K -> forall C C' f S, holds K C C' (fun i j => mul K (one K) (f i j)) S -> holds K C C' f S.
Proof.
  intros T K HR C C' f S (H1 & H2 & H3 & H4 & H5 & H6 & H7). repeat (split; [assumption|]). intros i j Hi Hj. rewrite H7 by auto. apply (one_l K HR).
Qed.

(* C = alpha*A + beta*B with a workspace of the size asked for: the elements are
   the sums, whatever C and the workspace held before *)
Theorem C41_addto : forall T (K : num T), is_ring K -> forall sz L m (A B C : sparse T) alpha beta bits w junk,
  valid A -> valid B -> storage C -> sp_kind B = sp_kind A -> sp_kind C = sp_kind A ->
  sp_rows B = sp_rows A -> sp_cols B = sp_cols A -> sp_rows C = sp_rows A -> sp_cols C = sp_cols A ->
  has bits ARMAS_TRANSA = false -> has bits ARMAS_TRANSB = false ->
  w_bytes w <> 0 -> armas_accum_need sz C <= armas_wbytes w ->
  let S := fun i j => stored A i j \/ stored B i j in room_for C S ->
  exists C', armassp_addto_w K sz (Some C) alpha A beta B bits (Some w) junk L m = Some (mkoutcome 0 0 (Some C') (Some w), m) /\
    holds K C C' (fun i j => add K (mul K alpha (value K A i j)) (mul K beta (value K B i j))) S.
Proof.
  intros T K HR sz L m A B C alpha beta bits w junk VA VB SC KB KC RB CB RC CC TA TB Wb Wn S RO.
  apply addto_run; auto. intros spa E1 E2 E3 E4. rewrite TA, TB. cbn [negb andb].
  pose proof SC as (HK & _). assert (HKA : sp_kind A <> COO) by congruence.
  assert (NA : nlines A = nlines C) by (unfold nlines; rewrite KC, RC, CC; reflexivity). assert (WA : linelen A = linelen C) by (unfold linelen; rewrite KC, RC, CC; reflexivity).
  assert (NB : nlines B = nlines C) by (unfold nlines; rewrite KC, KB, RC, CC, RB, CB; reflexivity). assert (WB : linelen B = linelen C) by (unfold linelen; rewrite KC, KB, RC, CC, RB, CB; reflexivity).
  pose proof (valid_linesr A VA HKA) as LA. pose proof (valid_linesr B VB ltac:(congruence)) as LB.
  assert (Hline : wp (spa_lines K C (nlines A) (one K) (fun i spa => bind (add_line K A alpha i spa) (add_line K B beta i)) (nlines A) spa) L m
    (fun C' m' => m' = m /\ holds K C C' (fun i j => mul K (one K) (add K (mul K alpha (value K A i j)) (mul K beta (value K B i j)))) S)).
  { apply (frame_ok T K HR L m (one K) (fun i j => add K (mul K alpha (value K A i j)) (mul K beta (value K B i j))) S C); auto.
    intros i Hi. eapply adds_ext.
    - apply (adds_seq K HR); [apply (adds_line K HR L (linelen C) A (nlines A)); [rewrite <- WA; auto|lia]|apply (adds_line K HR L (linelen C) B (nlines B)); [rewrite <- WB; auto|lia]].
    - intros c Hc. cbn beta. rewrite <- (sw_value K HR A (sp_kind C)), <- (sw_value K HR B (sp_kind C)) by (auto; try congruence; lia). unfold sw. destruct (sp_kind C); reflexivity.
    - intros c Hc [H|H]; [apply (sw_stored A (sp_kind C)) in H|apply (sw_stored B (sp_kind C)) in H]; auto; try congruence; try lia; unfold sw, S in *; destruct (sp_kind C); auto. }
  assert (EN : nlines A = match sp_kind A with CSR => sp_rows A | _ => sp_cols A end) by reflexivity.
  apply wp_conseq with (P := fun C' m' => m' = m /\ holds K C C' (fun i j => mul K (one K) (add K (mul K alpha (value K A i j)) (mul K beta (value K B i j)))) S); [|intros C' m' (-> & H); split; [auto|]; apply (holds_one T K HR); exact H].
  destruct (sp_kind A); try congruence; cbn [kind_eqb]; rewrite EN in Hline; exact Hline.
Qed.
Print Assumptions C41_addto.

(* C = alpha*A + beta*B^T, which the size check admits for square matrices only;
   the lines of B ascend and the storage of B has a free place *)
Theorem C41_addto_transb_partial : forall T (K : num T), is_ring K -> forall sz L m (A B C : sparse T) alpha beta bits w junk,
  valid A -> valid B -> storage C -> sp_kind B = sp_kind A -> sp_kind C = sp_kind A ->
  sp_rows A = sp_cols A -> sp_rows B = sp_rows A -> sp_cols B = sp_cols A -> sp_rows C = sp_rows A -> sp_cols C = sp_cols A ->
  strictly_ascending B -> sp_nnz B < sp_size B ->
  has bits ARMAS_TRANSA = false -> has bits ARMAS_TRANSB = true ->
  w_bytes w <> 0 -> armas_accum_need sz C <= armas_wbytes w ->
  let S := fun i j => stored A i j \/ stored B j i in room_for C S ->
  exists C', armassp_addto_w K sz (Some C) alpha A beta B bits (Some w) junk L m = Some (mkoutcome 0 0 (Some C') (Some w), m) /\
    holds K C C' (fun i j => add K (mul K alpha (value K A i j)) (mul K beta (value K B j i))) S.
Proof.
  intros T K HR sz L m A B C alpha beta bits w junk VA VB SC KB KC SQ RB CB RC CC AB NZB TA TB Wb Wn S RO.
  apply addto_run; auto. intros spa E1 E2 E3 E4. rewrite TA, TB. cbn [negb andb].
  pose proof SC as (HK & _). assert (HKA : sp_kind A <> COO) by congruence. assert (HKB : sp_kind B <> COO) by congruence.
  assert (NA : nlines A = nlines C) by (unfold nlines; rewrite KC, RC, CC; reflexivity). assert (WA : linelen A = linelen C) by (unfold linelen; rewrite KC, RC, CC; reflexivity).
  assert (NB : nlines B = nlines C) by (unfold nlines; rewrite KC, KB, RC, CC, RB, CB; reflexivity). assert (WB : linelen B = linelen C) by (unfold linelen; rewrite KC, KB, RC, CC, RB, CB; reflexivity).
  assert (NW : nlines C = linelen C) by (unfold nlines, linelen; rewrite RC, CC; destruct (sp_kind C); lia).
  pose proof (valid_linesr A VA HKA) as LA. pose proof (valid_linesr B VB ltac:(congruence)) as LB.
  assert (Hline : wp (spa_lines K C (nlines A) (one K) (fun i spa => bind (add_line K A alpha i spa) (add_across K B (nlines B) beta i)) (nlines A) spa) L m
    (fun C' m' => m' = m /\ holds K C C' (fun i j => mul K (one K) (add K (mul K alpha (value K A i j)) (mul K beta (value K B j i)))) S)).
  { apply (frame_ok T K HR L m (one K) (fun i j => add K (mul K alpha (value K A i j)) (mul K beta (value K B j i))) S C); auto.
    intros i Hi. eapply adds_ext.
    - apply (adds_seq K HR); [apply (adds_line K HR L (linelen C) A (nlines A)); [rewrite <- WA; auto|lia]|].
      apply (adds_across K HR L (linelen C) B (nlines B) (linelen B)); [exact LB|exact (asc_sorted B AB)|exact (nnz_spare B VB HKB NZB)|lia].
    - intros c Hc. cbn beta. replace (c <? nlines B) with true by lia. rewrite <- (sw_value K HR A (sp_kind C)), <- (sw_value K HR B (sp_kind C)) by (auto; try congruence; lia). unfold sw. destruct (sp_kind C); reflexivity.
    - intros c Hc [H|[_ H]]; [apply (sw_stored A (sp_kind C)) in H|apply (sw_stored B (sp_kind C)) in H]; auto; try congruence; try lia; unfold sw, S in *; destruct (sp_kind C); auto. }
  assert (EN : nlines A = match sp_kind A with CSR => sp_rows A | _ => sp_cols A end) by reflexivity.
  assert (EN' : nlines B = match sp_kind A with CSR => sp_rows B | _ => sp_cols B end) by (unfold nlines; rewrite KB; reflexivity).
  apply wp_conseq with (P := fun C' m' => m' = m /\ holds K C C' (fun i j => mul K (one K) (add K (mul K alpha (value K A i j)) (mul K beta (value K B j i)))) S); [|intros C' m' (-> & H); split; [auto|]; apply (holds_one T K HR); exact H].
  destruct (sp_kind A); try congruence; cbn [kind_eqb]; rewrite EN, EN' in Hline; exact Hline.
Qed.
Print Assumptions C41_addto_transb_partial.

(* ARMAS_TRANSA on row-compressed matrices: A is multiplied by beta, so the
   result is right when alpha = beta *)
Theorem C41_addto_transa_partial : forall T (K : num T), is_ring K -> forall sz L m (A B C : sparse T) alpha beta bits w junk,
  valid A -> valid B -> storage C -> sp_kind A = CSR -> sp_kind B = CSR -> sp_kind C = CSR ->
  sp_rows A = sp_cols A -> sp_rows B = sp_rows A -> sp_cols B = sp_cols A -> sp_rows C = sp_rows A -> sp_cols C = sp_cols A ->
  strictly_ascending A -> sp_nnz A < sp_size A ->
  has bits ARMAS_TRANSA = true -> has bits ARMAS_TRANSB = false ->
  w_bytes w <> 0 -> armas_accum_need sz C <= armas_wbytes w ->
  let S := fun i j => stored A j i \/ stored B i j in room_for C S ->
  exists C', armassp_addto_w K sz (Some C) alpha A beta B bits (Some w) junk L m = Some (mkoutcome 0 0 (Some C') (Some w), m) /\
    holds K C C' (fun i j => add K (mul K beta (value K A j i)) (mul K beta (value K B i j))) S.
Proof.
  intros T K HR sz L m A B C alpha beta bits w junk VA VB SC KA KB KC SQ RB CB RC CC AA NZA TA TB Wb Wn S RO.
  apply addto_run; auto; [congruence|]. intros spa E1 E2 E3 E4. rewrite TA, TB, KA. cbn [negb andb kind_eqb].
  assert (NA : nlines A = sp_rows A) by (unfold nlines; rewrite KA; reflexivity). assert (WA : linelen A = sp_rows A) by (unfold linelen; rewrite KA; lia).
  assert (NB : nlines B = sp_rows A) by (unfold nlines; rewrite KB; lia). assert (WB : linelen B = sp_rows A) by (unfold linelen; rewrite KB; lia).
  assert (NC : nlines C = sp_rows A) by (unfold nlines; rewrite KC; lia). assert (WC : linelen C = sp_rows A) by (unfold linelen; rewrite KC; lia).
  pose proof (valid_linesr A VA ltac:(congruence)) as LA. pose proof (valid_linesr B VB ltac:(congruence)) as LB.
  apply wp_conseq with (P := fun C' m' => m' = m /\ holds K C C' (fun i j => mul K (one K) (add K (mul K beta (value K A j i)) (mul K beta (value K B i j)))) S); [|intros C' m' (-> & H); split; [auto|]; apply (holds_one T K HR); exact H].
  apply (frame_ok T K HR L m (one K) (fun i j => add K (mul K beta (value K A j i)) (mul K beta (value K B i j))) S C); auto.
  intros i Hi. eapply adds_ext.
  - rewrite <- NA. apply (adds_seq K HR).
    + apply (adds_across K HR L (linelen C) A (nlines A) (linelen A)); [exact LA|exact (asc_sorted A AA)|apply (nnz_spare A VA); [congruence|exact NZA]|lia].
    + apply (adds_line K HR L (linelen C) B (nlines B)); [rewrite WC, <- WB; auto|lia].
  - intros c Hc. cbn beta. replace (c <? nlines A) with true by lia. rewrite <- (sw_value K HR A CSR), <- (sw_value K HR B CSR) by (auto; try congruence; lia). rewrite KC. reflexivity.
  - intros c Hc [[_ H]|H]; [apply (sw_stored A CSR) in H|apply (sw_stored B CSR) in H]; auto; try congruence; try lia; rewrite KC; unfold sw, S in *; auto.
Qed.
Print Assumptions C41_addto_transa_partial.

(* the calls that are refused leave everything as it was; a query of the
   workspace changes the descriptor only *)
Theorem C41_refused : forall T (K : num T) sz L m (A B C : sparse T) alpha beta bits wb junk,
  (sp_kind A <> sp_kind B ->
     armassp_addto_w K sz (Some C) alpha A beta B bits wb junk L m = Some (mkoutcome (- ARMAS_EINVAL) 0 (Some C) wb, m)) /\
  (sp_kind A = sp_kind B -> (sp_rows A <> sp_rows B \/ sp_cols A <> sp_cols B) ->
     armassp_addto_w K sz (Some C) alpha A beta B bits wb junk L m = Some (mkoutcome (- ARMAS_ESIZE) 0 (Some C) wb, m)) /\
  (sp_kind A = sp_kind B -> sp_rows A = sp_rows B -> sp_cols A = sp_cols B -> forall w, wb = Some w -> w_bytes w <> 0 -> armas_wbytes w < armas_accum_need sz C ->
     armassp_addto_w K sz (Some C) alpha A beta B bits wb junk L m = Some (mkoutcome (- ARMAS_EWORK) ARMAS_EWORK (Some C) wb, m)) /\
  (sp_kind A = sp_kind B -> sp_rows A = sp_rows B -> sp_cols A = sp_cols B -> forall w, wb = Some w -> w_bytes w = 0 ->
     armassp_addto_w K sz (Some C) alpha A beta B bits wb junk L m =
     Some (mkoutcome 0 0 (Some C) (Some (mkwbuf (w_buf w) (armas_accum_need sz C) (w_offset w))), m)).
Proof.
  intros T K sz L m A B C alpha beta bits wb junk. unfold armassp_addto_w. split; [|split; [|split]].
  - intro H. replace (kind_eqb (sp_kind A) (sp_kind B)) with false by (revert H; destruct (sp_kind A), (sp_kind B); intro H; first [reflexivity|congruence]). reflexivity.
  - intros -> H. rewrite kind_refl. cbn [negb]. destruct (Z.eqb_spec (sp_rows A) (sp_rows B)), (Z.eqb_spec (sp_cols A) (sp_cols B)); try reflexivity. exfalso. lia.
  - intros -> -> -> w -> H1 H2. rewrite kind_refl, !Z.eqb_refl. cbn [negb andb]. replace (w_bytes w =? 0) with false by lia. replace (armas_wbytes w <? armas_accum_need sz C) with true by lia. reflexivity.
  - intros -> -> -> w -> H1. rewrite kind_refl, !Z.eqb_refl, H1. cbn [negb andb]. reflexivity.
Qed.
Print Assumptions C41_refused.

(* armassp_add: the first thing it does with two matrices that fit is to ask for
   the workspace of the null matrix, which reads through a null pointer *)
Theorem C41_add_refuted : forall T (K : num T) sz mem_ok L m (A B : sparse T) alpha beta bits junk,
  sp_kind B = sp_kind A -> sp_rows B = sp_rows A -> sp_cols B = sp_cols A ->
  armassp_add K sz mem_ok alpha A beta B bits junk L m = None.
Proof.
  intros T K sz mem_ok L m A B alpha beta bits junk KB RB CB. unfold armassp_add, armassp_addto_w. rewrite KB, RB, CB, kind_refl, !Z.eqb_refl. reflexivity.
Qed.
Print Assumptions C41_add_refuted.

(* conjunctions of closed equations *)
Ltac conj := repeat match goal with |- _ /\ _ => split end; vm_compute; reflexivity.

Lemma seg_len : forall f g n, 0 <= n -> (forall j, 0 <= j < n -> f j <= f (j + 1)) -> Z.of_nat (length (seg_pairs f g n)) = f n - f 0.
Proof.
  intros f g n Hn. pattern n. apply natlike_ind; auto.
  - intros _. unfold seg_pairs. rewrite zr_nil by lia. cbn. lia.
  - intros i Hi IH Hm. unfold Z.succ in *. specialize (IH ltac:(intros; apply Hm; lia)). unfold seg_pairs in *. rewrite zr_snoc by lia.
    rewrite flat_map_snoc, app_length, map_length, zr_length. pose proof (Hm i ltac:(lia)). lia.
Qed.
Lemma entries_len : forall T (A : sparse T), valid A -> sp_kind A <> COO -> Z.of_nat (length (map fst (entries A))) = sp_nnz A.
Proof.
  intros T A V Hk. pose proof V as (V1 & V2 & V3 & V').
  assert (X : sp_nptr A = nlines A /\ aget (sp_ptr A) 0 = 0 /\ aget (sp_ptr A) (nlines A) = sp_nnz A /\ (forall j, 0 <= j < nlines A -> aget (sp_ptr A) j <= aget (sp_ptr A) (j + 1)))
    by (destruct (sp_kind A); try congruence; tauto).
  destruct X as (X1 & X2 & X3 & X4). rewrite entries_pairs by auto. rewrite map_length, seg_len; auto; [lia|]. unfold nlines; destruct (sp_kind A); auto.
Qed.

(* room for the number of elements of both and one more is enough *)
Lemma room_sum : forall T (A B C : sparse T), valid A -> valid B -> sp_kind A <> COO -> sp_kind B <> COO -> sp_nnz A + sp_nnz B < sp_size C ->
  room_for C (fun i j => stored A i j \/ stored B i j).
Proof.
  intros T A B C VA VB KA KB H pl N Hp. right. assert (X : (length pl <= length (map fst (entries A) ++ map fst (entries B)))%nat).
  { apply NoDup_incl_length; auto. intros [i j] Hin. apply in_or_app. apply (Hp i j Hin). }
  rewrite app_length in X. pose proof (entries_len T A VA KA). pose proof (entries_len T B VB KB). lia.
Qed.
(* and so is room for all positions and one more *)
Lemma room_all : forall T (C : sparse T) (S : Z -> Z -> Prop), 0 <= sp_rows C -> 0 <= sp_cols C -> (forall i j, S i j -> 0 <= i < sp_rows C /\ 0 <= j < sp_cols C) ->
  sp_rows C * sp_cols C < sp_size C -> room_for C S.
Proof.
  intros T C S Hr Hc H Hs pl N Hp. right. assert (X : (length pl <= length (list_prod (zr 0 (sp_rows C)) (zr 0 (sp_cols C))))%nat).
  { apply NoDup_incl_length; auto. intros [i j] Hin. destruct (H i j (Hp i j Hin)). apply in_prod; apply zr_in; auto. }
  rewrite prod_length, !zr_length in X. nia.
Qed.
Lemma stored_in : forall T (A : sparse T) i j, valid A -> sp_kind A <> COO -> stored A i j -> 0 <= i < sp_rows A /\ 0 <= j < sp_cols A.
Proof.
  intros T A i j V Hk H. unfold stored in H. pose proof V as (V1 & V2 & V3 & V').
  assert (X1 : sp_nptr A = nlines A) by (destruct (sp_kind A); try congruence; tauto).
  rewrite entries_pairs in H by auto. apply in_map_iff in H as ([a b] & E & H). cbn [fst snd] in E. apply seg_in in H as (Ha & p & Hp & <-).
  pose proof (ln_ix _ _ _ (valid_linesr A V Hk) a p Ha Hp) as Hi. unfold sw, nlines, linelen in *. destruct (sp_kind A); inversion E; subst; auto.
Qed.

(* a 2 x 2 target of the given size, a workspace for it that holds rubbish *)
Definition sa_C (k : spkind) (size : Z) : sparse Z := armassp_make Znum 8 2 2 size k.
Definition sa_w : wbuf := mkwbuf 1 32 0.
Definition sa_junk : accum Z := mkaccum (mkarr 0 (fun i => 77 + i)) (mkarr 0 (fun i => 5 - i)) (mkarr 0 (fun i => 9)) 3.
(* [1 0; 4 6] *)
Definition sa_B (k : spkind) : sparse Z :=
  mksparse (mkarr 4 (fun p => match k with CSC => (if p =? 0 then 1 else if p =? 1 then 4 else 6) | _ => (if p =? 0 then 1 else if p =? 1 then 4 else 6) end)) (noarr (coo0 Znum)) 2 2 3
    (mkarr 3 (fun j => match k with CSC => (if j =? 0 then 0 else if j =? 1 then 2 else 3) | _ => (if j =? 0 then 0 else if j =? 1 then 1 else 3) end))
    (mkarr 4 (fun p => match k with CSC => (if p =? 0 then 0 else 1) | _ => (if p =? 0 then 0 else if p =? 1 then 0 else 1) end)) 2 4 k 100.

Lemma sa_B_ok : forall k, k <> COO -> valid (sa_B k) /\ strictly_ascending (sa_B k).
Proof.
  intros k Hk. split.
  - unfold valid. destruct k; try congruence; cbn; repeat split; try lia; sv_cases.
  - unfold strictly_ascending. destruct k; try congruence; cbn; intros j p q; sv_cases.
Qed.
Lemma sa_C_ok : forall k n, k <> COO -> 0 <= n -> storage (sa_C k n).
Proof. intros k n Hk Hn. unfold storage. destruct k; try congruence; cbn; repeat split; auto; lia. Qed.

(* 2*[2 5; 0 3] + 10*[1 0; 4 6] = [14 10; 40 66]; by columns the first operand is
   [2 0; 5 3] *)
Example C41_nonvacuous :
  (forall k, k <> COO -> valid (sv_sq k) /\ valid (sa_B k) /\ strictly_ascending (sa_B k) /\ sp_nnz (sa_B k) < sp_size (sa_B k) /\ storage (sa_C k 7) /\
     w_bytes sa_w <> 0 /\ armas_accum_need 8 (sa_C k 7) <= armas_wbytes sa_w /\
     room_for (sa_C k 7) (fun i j => stored (sv_sq k) i j \/ stored (sa_B k) i j)) /\
  (exists C', armassp_addto_w Znum 8 (Some (sa_C CSR 7)) 2 (sv_sq CSR) 10 (sa_B CSR) 0 (Some sa_w) sa_junk sv_L sv_m = Some (mkoutcome 0 0 (Some C') (Some sa_w), sv_m) /\
     sp_nnz C' = 4 /\ value Znum C' 0 0 = 14 /\ value Znum C' 0 1 = 10 /\ value Znum C' 1 0 = 40 /\ value Znum C' 1 1 = 66) /\
  (exists C', armassp_addto_w Znum 8 (Some (sa_C CSC 7)) 2 (sv_sq CSC) 10 (sa_B CSC) 0 (Some sa_w) sa_junk sv_L sv_m = Some (mkoutcome 0 0 (Some C') (Some sa_w), sv_m) /\
     sp_nnz C' = 3 /\ value Znum C' 0 0 = 14 /\ value Znum C' 0 1 = 0 /\ value Znum C' 1 0 = 50 /\ value Znum C' 1 1 = 66) /\
  (exists C', armassp_addto_w Znum 8 (Some (sa_C CSR 7)) 2 (sv_sq CSR) 10 (sa_B CSR) ARMAS_TRANSB (Some sa_w) sa_junk sv_L sv_m = Some (mkoutcome 0 0 (Some C') (Some sa_w), sv_m) /\
     value Znum C' 0 0 = 14 /\ value Znum C' 0 1 = 50 /\ value Znum C' 1 0 = 0 /\ value Znum C' 1 1 = 66).
Proof.
  split.
  { intros k Hk. pose proof (sv_sq_ok k Hk) as (H1 & _). pose proof (sa_B_ok k Hk) as (H2 & H3). do 3 (split; [assumption|]). split; [cbn; lia|].
    split; [apply sa_C_ok; auto; lia|]. split; [discriminate|]. split; [destruct k; vm_compute; congruence|].
    apply room_sum; auto; destruct k; cbn; lia. }
  split; [|split]; eexists; conj.
Qed.

(* the target has exactly the room the sum needs: the program is aborted *)
Theorem C41_exact_fit_refuted :
  storage (sa_C CSR 4) /\ room_for (sa_C CSR 5) (fun i j => stored (sv_sq CSR) i j \/ stored (sa_B CSR) i j) /\
  armassp_addto_w Znum 8 (Some (sa_C CSR 4)) 2 (sv_sq CSR) 10 (sa_B CSR) 0 (Some sa_w) sa_junk sv_L sv_m = None /\
  exists C', armassp_addto_w Znum 8 (Some (sa_C CSR 5)) 2 (sv_sq CSR) 10 (sa_B CSR) 0 (Some sa_w) sa_junk sv_L sv_m = Some (mkoutcome 0 0 (Some C') (Some sa_w), sv_m) /\ sp_nnz C' = 4.
Proof.
  split; [apply sa_C_ok; [discriminate|lia]|]. split.
  { apply room_all; try (cbn; lia). intros i j [H|H]; apply stored_in in H; auto; try discriminate; [apply sv_sq_ok; discriminate|apply sa_B_ok; discriminate]. }
  split; [vm_compute; reflexivity|]. eexists. split; vm_compute; reflexivity.
Qed.
Print Assumptions C41_exact_fit_refuted.

(* ARMAS_TRANSA: alpha does not enter for row-compressed matrices; nothing at all
   is computed for column-compressed ones, and 0 is returned *)
Theorem C41_transa_refuted :
  (exists C', armassp_addto_w Znum 8 (Some (sa_C CSR 7)) 2 (sa_B CSR) 10 (sa_B CSR) ARMAS_TRANSA (Some sa_w) sa_junk sv_L sv_m = Some (mkoutcome 0 0 (Some C') (Some sa_w), sv_m) /\
     value Znum C' 0 0 = 20 /\ 2 * value Znum (sa_B CSR) 0 0 + 10 * value Znum (sa_B CSR) 0 0 = 12) /\
  (forall T (K : num T) sz L m (A B C : sparse T) alpha beta w junk, sp_kind A = CSC -> sp_kind B = CSC -> sp_rows B = sp_rows A -> sp_cols B = sp_cols A ->
     w_bytes w <> 0 -> armas_accum_need sz C <= armas_wbytes w ->
     armassp_addto_w K sz (Some C) alpha A beta B ARMAS_TRANSA (Some w) junk L m = Some (mkoutcome 0 0 (Some C) (Some w), m)).
Proof.
  split; [eexists; conj|].
  intros T K sz L m A B C alpha beta w junk KA KB RB CB Wb Wn.
  destruct (addto_run T K sz L m A B C alpha beta ARMAS_TRANSA w junk (fun C' => C' = C)) as (C' & R & ->); auto; [congruence|].
  intros spa _ _ _ _. rewrite KA. apply wp_ret. auto.
Qed.
Print Assumptions C41_transa_refuted.

(* with both flags the operands are added as they are *)
Theorem C41_both_refuted :
  exists C', armassp_addto_w Znum 8 (Some (sa_C CSR 7)) 1 (sv_sq CSR) 1 (sa_B CSR) (Z.lor ARMAS_TRANSA ARMAS_TRANSB) (Some sa_w) sa_junk sv_L sv_m = Some (mkoutcome 0 0 (Some C') (Some sa_w), sv_m) /\
    value Znum C' 0 1 = 5 /\ value Znum (sv_sq CSR) 1 0 + value Znum (sa_B CSR) 1 0 = 4.
Proof. eexists. conj. Qed.
Print Assumptions C41_both_refuted.

(* the kind of C is not looked at: rows are stored as columns *)
Theorem C41_kind_refuted :
  exists C', storage (sa_C CSC 7) /\ armassp_addto_w Znum 8 (Some (sa_C CSC 7)) 1 (sv_sq CSR) 1 (sa_B CSR) 0 (Some sa_w) sa_junk sv_L sv_m = Some (mkoutcome 0 0 (Some C') (Some sa_w), sv_m) /\
    value Znum C' 0 1 = 4 /\ value Znum (sv_sq CSR) 0 1 + value Znum (sa_B CSR) 0 1 = 5.
Proof. eexists. split; [apply sa_C_ok; [discriminate|lia]|]. conj. Qed.
Print Assumptions C41_kind_refuted.
