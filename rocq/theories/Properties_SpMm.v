(* Properties_SpMm.v: property C69, Matrix Market files of sparse matrices. *)
From Coq Require Import String Ascii.
From Coq Require Import ZArith Bool List Lia.
From Verif Require Import MBase Mem MNum MFlags MSparse SpecNum SpecSparse SpecJson MIo MMm Hoare PIo PJsonw PSparse PSpconv PSpVec PMm Inst Properties_Mm Properties_SpAcc.
Import ListNotations.
Local Open Scope Z_scope.
Ltac lia := Lia.lia.

Section Sparse.
  Context {T : Type} (K : num T) (sz : Z) (mem_ok : Z -> bool) (fmte : T -> list Z) (strtod : list Z -> T).
  (* values written are read back *)
  Definition strtod_text : Prop := forall x, ~ In cNL (fmte x) /\ strtod (fmte x ++ [cNL]) = x.
  Hypothesis HF : strtod_text.
  Variables (L : Z -> bool) (mm : Z -> T).

  Lemma text_line : forall i j v f, getline (sp_text fmte i j v ++ f) = Some (sp_text fmte i j v, f).
  Proof.
    intros i j v f. unfold sp_text. replace ((dec i ++ [cSP] ++ dec j ++ [cSP] ++ fmte v ++ [cNL]) ++ f) with ((dec i ++ [cSP] ++ (dec j ++ [cSP] ++ fmte v)) ++ cNL :: f) by (rewrite <- !app_assoc; reflexivity).
    rewrite getline_app; [rewrite <- !app_assoc; reflexivity|]. destruct (HF v) as (G & _). repeat apply in_app3; auto using dec_nl, sp_nl.
  Qed.

  Definition text_of (es : list (Z * Z * T)) : list Z := flat_map (fun e => sp_text fmte (fst (fst e)) (snd (fst e)) (snd e)) es.
  Lemma text_app : forall a b, text_of (a ++ b) = text_of a ++ text_of b.
  Proof. intros. apply flat_map_app. Qed.
  Definition shift (e : Z * Z * T) : Z * Z * T := (fst (fst e) - 1, snd (fst e) - 1, snd e).
  Definition small (e : Z * Z * T) : Prop := - 2 ^ 31 <= fst (fst e) < 2 ^ 31 /\ - 2 ^ 31 <= snd (fst e) < 2 ^ 31.

  Lemma sp_line_ok : forall i j v A, small (i, j, v) -> sp_kind A = COO -> 0 <= sp_nnz A < sp_size A -> alen (sp_ep A) = sp_size A ->
    wp (sp_line K sz mem_ok strtod (sp_text fmte i j v) A) L mm (fun A' m' => m' = mm /\ A' = sp_with_coo A (aset (sp_ep A) (sp_nnz A) (mkcoo v (i - 1) (j - 1))) (sp_nnz A + 1) (sp_size A)).
  Proof.
    intros i j v A [S1 S2] HK Hn Hl. cbn [fst snd] in *. unfold sp_line, sp_text. rewrite strtol_dec by reflexivity. rewrite i32_in by lia. cbn [past app]. rewrite strtol_dec by reflexivity. rewrite i32_in by lia. cbn [past app].
    destruct (HF v) as (_ & ->). unfold armassp_append. rewrite HK. replace (sp_nnz A =? sp_size A) with false by lia. wbind. wbind. apply wp_ret. cbn [fst snd].
    replace (0 <? 0) with false by lia. wbind. apply awrite_wp; [lia|]. apply wp_ret. cbn [snd]. apply wp_ret. auto.
  Qed.

  Lemma sp_loop_ok : forall es fuel f k A, Forall small es -> sp_kind A = COO -> 0 <= sp_nnz A -> sp_size A = sp_nnz A + Z.of_nat (length es) -> alen (sp_ep A) = sp_size A ->
    (length (text_of es ++ f) < fuel)%nat ->
    wp (sp_loop K sz mem_ok strtod fuel (k + Z.of_nat (length es)) k (text_of es ++ f) A) L mm (fun r m' => m' = mm /\ snd r = next_line f /\ sp_kind (fst r) = COO /\ sp_rows (fst r) = sp_rows A /\ sp_cols (fst r) = sp_cols A /\
      sp_nnz (fst r) = sp_size A /\ sp_size (fst r) = sp_size A /\ alen (sp_ep (fst r)) = sp_size A /\
      entries (fst r) = entries A ++ map shift es).
  Proof.
    induction es as [|[[i j] v] es IH]; intros fuel f k A HE HK Hn Hs Hl Hf.
    - cbn [text_of flat_map app length map] in *. destruct fuel as [|fuel]; [lia|]. cbn [sp_loop]. rewrite app_nil_r. unfold getline, next_line.
      destruct f as [|c f]; [apply wp_ret; cbn [fst snd]; auto 10; repeat (split; [first [reflexivity|assumption|lia]|]); reflexivity|].
      destruct (split_line (c :: f)) as [l f'] eqn:E. cbn [snd]. replace (k <? k + Z.of_nat 0) with false by lia. apply wp_ret. cbn [fst snd].
      repeat (split; [first [reflexivity|assumption|lia]|]); reflexivity.
    - inversion HE as [|? ? Hs1 HE']; subst. destruct fuel as [|fuel]; [lia|]. cbn [sp_loop]. unfold text_of in Hf |- *. cbn [flat_map fst snd length] in Hf, Hs |- *. fold (text_of es) in Hf |- *.
      rewrite <- app_assoc in Hf |- *. rewrite text_line. replace (k <? k + Z.of_nat (S (length es))) with true by lia.
      wbind. eapply wp_conseq; [apply sp_line_ok; auto; lia|]. intros A' m' (-> & ->).
      replace (k + Z.of_nat (S (length es))) with (k + 1 + Z.of_nat (length es)) by lia.
      eapply wp_conseq; [apply IH; cbn [sp_with_coo sp_kind sp_nnz sp_size sp_ep]; auto; try lia; try (rewrite aset_len; lia)|].
      { rewrite app_length in Hf. unfold sp_text in Hf at 1. rewrite !app_length in Hf. cbn [length] in Hf. rewrite app_length in *. lia. }
      intros r m' (-> & R1 & R2 & R3 & R4 & R5 & R6 & R7 & R8). cbn [sp_with_coo sp_kind sp_nnz sp_size sp_ep sp_rows sp_cols] in *.
      repeat (split; [first [reflexivity|assumption|lia]|]). rewrite R8. cbn [map]. change (shift (i, j, v) :: map shift es) with ([shift (i, j, v)] ++ map shift es). rewrite app_assoc. f_equal.
      unfold entries. cbn [sp_with_coo sp_kind sp_nnz sp_ep]. rewrite HK. rewrite zr_snoc, map_app by lia. f_equal.
      + apply map_ext_in. intros q Hq. apply zr_in in Hq. rewrite aset_other by lia. reflexivity.
      + cbn [map]. rewrite aset_same. reflexivity.
  Qed.

  Definition sp_file (sym : bool) (m n : Z) (es : list (Z * Z * T)) : list Z :=
    codes "%%Matrixmarket matrix coordinate real " ++ (if sym then codes "symmetric" else codes "general") ++ [cNL] ++
    dec m ++ [cSP] ++ dec n ++ [cSP] ++ dec (Z.of_nat (length es)) ++ [cNL] ++ text_of es.

  Lemma mmload_ok : forall sym m n es rest, 0 < m < 2 ^ 31 -> 0 < n < 2 ^ 31 -> es <> [] -> Z.of_nat (length es) < 2 ^ 31 -> Forall small es ->
    mem_ok (armassp_bytes_needed sz m n (Z.of_nat (length es)) COO) = true ->
    exists A, armassp_mmload K sz mem_ok strtod (sp_file sym m n es ++ rest) L mm = Some ((Some A, Some (coord_code sym), next_line rest), mm) /\
      sp_kind A = COO /\ sp_rows A = m /\ sp_cols A = n /\ sp_nnz A = Z.of_nat (length es) /\ sp_size A = sp_nnz A /\ alen (sp_ep A) = sp_size A /\ entries A = map shift es.
  Proof.
    intros sym m n es rest Hm Hn He Hl HE HM. unfold armassp_mmload, sp_file. rewrite <- !app_assoc. rewrite coord_banner by (right; left; reflexivity).
    assert (E1 : has (coord_code sym) MM_MATRIX = true) by (destruct sym; reflexivity). assert (E2 : has (coord_code sym) MM_REAL = true) by (destruct sym; reflexivity).
    assert (E5 : has (coord_code sym) MM_COORDINATE = true) by (destruct sym; reflexivity). rewrite E1, E2, E5. cbn [negb orb]. rewrite size_coord by (auto; lia).
    unfold armassp_new, armassp_init. assert (Hz : 0 < Z.of_nat (length es)) by (destruct es; [congruence|cbn [length]; lia]).
    replace ((m =? 0) || (n =? 0) || (Z.of_nat (length es) =? 0)) with false by lia. rewrite HM.
    set (A0 := armassp_make K sz m n (Z.of_nat (length es)) COO).
    pose proof (sp_loop_ok es (S (length (text_of es ++ rest))) rest 0 A0 HE eq_refl ltac:(cbn; lia) eq_refl eq_refl (Nat.lt_succ_diag_r _)) as (r & m' & R & -> & R1 & R2 & R3 & R4 & R5 & R6 & R7 & R8).
    rewrite Z.add_0_l in R. rewrite run_bind, R. exists (fst r). split; [rewrite <- R1; reflexivity|]. cbn in R3, R4, R5, R6, R7, R8.
    repeat (split; [first [assumption|lia]|]). exact R8.
  Qed.

  Lemma mmdump_ok : forall A flags, valid A -> armassp_mmdump fmte A flags L mm = Some (codes "%%Matrixmarket matrix coordinate real " ++ (if has flags MM_SYMMETRIC then codes "symmetric" else codes "general") ++ [cNL] ++
    dec (sp_rows A) ++ [cSP] ++ dec (sp_cols A) ++ [cSP] ++ dec (sp_nnz A) ++ [cNL] ++ text_of (entries A), mm).
  Proof.
    intros A flags V. pose proof V as (V1 & V2 & V3 & V4). unfold armassp_mmdump. set (hd := _ ++ _ ++ _ ++ _).
    assert (X : forall c, wp c L mm (fun t m' => m' = mm /\ t = hd ++ text_of (entries A)) -> c L mm = Some (hd ++ text_of (entries A), mm)).
    { intros c (t & m' & R & -> & ->). exact R. }
    match goal with |- _ = Some (?t, mm) => replace t with (hd ++ text_of (entries A)) by (unfold hd; rewrite <- !app_assoc; reflexivity) end.
    assert (LN : forall (g : Z -> Z -> Z * Z) n, lines A n (linelen A) ->
      wp (for_acc 0 n 1 (fun i t => p0 <- aread (sp_ptr A) i ;; p1 <- aread (sp_ptr A) (i + 1) ;;
               for_acc p0 p1 1 (fun k t => x <- aread (sp_ix A) k ;; v <- aread (sp_v A) k ;; ret (t ++ sp_text fmte (fst (g i x)) (snd (g i x)) v)) t)%prog hd) L mm
        (fun t m' => m' = mm /\ t = hd ++ text_of (flat_map (fun j => map (fun e => (g j (fst e), snd e)) (line_of A j)) (zr 0 n)))).
    { intros g n [H0 Hw A3 Hlo A1 Hmo Hix].
      apply wp_for1_acc with (I := fun i t m' => m' = mm /\ t = hd ++ text_of (flat_map (fun j => map (fun e => (g j (fst e), snd e)) (line_of A j)) (zr 0 i))).
      - split; auto. rewrite zr_nil by lia. cbn [flat_map text_of]. rewrite app_nil_r. reflexivity.
      - intros i t m' Hi (-> & ->). wbind. apply aread_wp; [lia|]. wbind. apply aread_wp; [lia|].
        set (t0 := hd ++ _). set (p0 := aget (sp_ptr A) i). set (p1 := aget (sp_ptr A) (i + 1)).
        apply wp_for1_acc with (I := fun p t m' => m' = mm /\ t = t0 ++ text_of (map (fun q => (g i (aget (sp_ix A) q), aget (sp_v A) q)) (zr p0 p))).
        + split; auto. rewrite zr_nil by lia. cbn [map text_of flat_map]. rewrite app_nil_r. reflexivity.
        + intros p t m' Hpp (-> & ->). assert (Q1 : 0 <= p0 <= alen (sp_ix A)) by (apply Hlo; lia). assert (Q2 : 0 <= p1 <= alen (sp_ix A)) by (apply Hlo; lia). wbind. apply aread_wp; [lia|]. wbind. apply aread_wp; [lia|]. apply wp_ret. split; auto.
          rewrite zr_snoc, map_app by lia. unfold text_of. rewrite flat_map_app, app_assoc. cbn [map flat_map fst snd]. rewrite app_nil_r. reflexivity.
        + intros t m' (-> & ->). split; auto. rewrite zr_snoc by lia. rewrite flat_map_app, text_app. unfold t0. rewrite <- app_assoc. f_equal. f_equal. cbn [flat_map]. rewrite app_nil_r.
          unfold line_of. rewrite map_map. fold p0 p1. cbn [fst snd]. replace (zr p0 (Z.max p0 p1)) with (zr p0 p1); [reflexivity|]. destruct (Z.max_spec p0 p1) as [[Q ->]|[Q ->]]; auto. rewrite !zr_nil by lia. reflexivity.
      - intros t m' (-> & ->). rewrite Z.max_r by lia. auto. }
    destruct (sp_kind A) eqn:HK; apply X.
    - pose proof (valid_linesr A V ltac:(congruence)) as LA. destruct V4 as (W1 & _). unfold nlines in LA, W1. rewrite HK in LA, W1.
      eapply wp_conseq; [apply (LN (fun j x => (x, j)) (sp_cols A) LA)|]. intros t m' (-> & ->). split; auto. unfold entries. rewrite HK, W1. reflexivity.
    - pose proof (valid_linesr A V ltac:(congruence)) as LA. destruct V4 as (W1 & _). unfold nlines in LA, W1. rewrite HK in LA, W1.
      eapply wp_conseq; [apply (LN (fun i x => (i, x)) (sp_rows A) LA)|]. intros t m' (-> & ->). split; auto. unfold entries. rewrite HK, W1. reflexivity.
    - destruct V4 as (Hl & Hin). eapply wp_for1_acc with (I := fun k t m' => m' = mm /\ t = hd ++ text_of (map (fun k => let e := aget (sp_ep A) k in (ci e, cj e, cv e)) (zr 0 k))).
      + split; auto. rewrite zr_nil by lia. cbn [map text_of flat_map]. rewrite app_nil_r. reflexivity.
      + intros k t m' Hk (-> & ->). wbind. apply aread_wp; [lia|]. apply wp_ret. split; auto. rewrite zr_snoc, map_app by lia. unfold text_of. rewrite flat_map_app, app_assoc. cbn [map flat_map fst snd]. rewrite app_nil_r. reflexivity.
      + intros t m' (-> & ->). split; auto. rewrite Z.max_r by lia. unfold entries. rewrite HK. reflexivity.
  Qed.
End Sparse.

Lemma entries_in : forall T (A : sparse T), valid A -> forall i j v, In (i, j, v) (entries A) -> 0 <= i < sp_rows A /\ 0 <= j < sp_cols A.
Proof.
  intros T A V i j v H. destruct (sp_kind A) eqn:HK.
  - apply stored_in; auto; [congruence|]. apply in_map_iff. exists (i, j, v). auto.
  - apply stored_in; auto; [congruence|]. apply in_map_iff. exists (i, j, v). auto.
  - destruct V as (_ & _ & _ & V). rewrite HK in V. destruct V as (_ & V). unfold entries in H. rewrite HK in H. apply in_map_iff in H. destruct H as (k & E & Hk). apply zr_in in Hk.
    cbv zeta in E. injection E as <- <- <-. auto.
Qed.
Lemma entries_count : forall T (A : sparse T), valid A -> Z.of_nat (length (entries A)) = sp_nnz A.
Proof.
  intros T A V. destruct (sp_kind A) eqn:HK.
  - rewrite <- (entries_len T A V) by congruence. rewrite map_length. reflexivity.
  - rewrite <- (entries_len T A V) by congruence. rewrite map_length. reflexivity.
  - destruct V as (_ & _ & V & _). unfold entries. rewrite HK, map_length, zr_length. lia.
Qed.

(* A file with indices from 1 is loaded as it says *)
Theorem C69_load : forall T (K : num T) sz mem_ok fmte strtod, strtod_text fmte strtod -> forall L mm sym m n es rest,
  0 < m < 2 ^ 31 -> 0 < n < 2 ^ 31 -> es <> [] -> Z.of_nat (length es) < 2 ^ 31 ->
  (forall i j v, In (i, j, v) es -> 1 <= i <= m /\ 1 <= j <= n) ->
  mem_ok (armassp_bytes_needed sz m n (Z.of_nat (length es)) COO) = true ->
  exists A, armassp_mmload K sz mem_ok strtod (sp_file fmte sym m n es ++ rest) L mm = Some ((Some A, Some (coord_code sym), next_line rest), mm) /\
    valid A /\ sp_kind A = COO /\ sp_rows A = m /\ sp_cols A = n /\ entries A = map (fun e => (fst (fst e) - 1, snd (fst e) - 1, snd e)) es.
Proof.
  intros T K sz mem_ok fmte strtod HF L mm sym m n es rest Hm Hn He Hl HE HM.
  destruct (mmload_ok K sz mem_ok fmte strtod HF L mm sym m n es rest Hm Hn He Hl) as (A & E & A1 & A2 & A3 & A4 & A5 & A6 & A7); auto.
  { apply Forall_forall. intros [[i j] v] Hin. specialize (HE i j v Hin). unfold small. cbn [fst snd]. lia. }
  exists A. split; [exact E|]. split; [|auto]. unfold valid. rewrite A1, A2, A3, A4. split; [lia|]. split; [lia|]. split; [lia|]. split; [auto|]. intros k Hk.
  assert (X : In (ci (aget (sp_ep A) k), cj (aget (sp_ep A) k), cv (aget (sp_ep A) k)) (entries A)).
  { unfold entries. rewrite A1. apply in_map_iff. exists k. split; [reflexivity|]. apply zr_in. lia. }
  rewrite A7 in X. apply in_map_iff in X. destruct X as ([[i j] v] & X & Hin). specialize (HE i j v Hin). unfold shift in X. cbn [fst snd] in X. injection X as X1 X2 X3. lia.
Qed.
Print Assumptions C69_load.

(* Dumping and loading: every element comes back one row up and one column to the
   left; an element of the first row or column gets an index of -1 *)
Theorem C69_roundtrip_refuted : forall T (K : num T) sz mem_ok fmte strtod, strtod_text fmte strtod -> forall L mm (A : sparse T) flags rest,
  valid A -> 0 < sp_nnz A < 2 ^ 31 -> sp_rows A < 2 ^ 31 -> sp_cols A < 2 ^ 31 -> mem_ok (armassp_bytes_needed sz (sp_rows A) (sp_cols A) (sp_nnz A) COO) = true ->
  exists text A', armassp_mmdump fmte A flags L mm = Some (text, mm) /\
    armassp_mmload K sz mem_ok strtod (text ++ rest) L mm = Some ((Some A', Some (coord_code (has flags MM_SYMMETRIC)), next_line rest), mm) /\
    entries A' = map (fun e => (fst (fst e) - 1, snd (fst e) - 1, snd e)) (entries A) /\
    (forall i j, value K A' i j = value K A (i + 1) (j + 1)) /\
    ((exists i j v, In (i, j, v) (entries A) /\ (i = 0 \/ j = 0)) -> ~ valid A').
Proof.
  intros T K sz mem_ok fmte strtod HF L mm A flags rest V Hz Hr Hc HM. pose proof (entries_count T A V) as EC. pose proof (entries_in T A V) as EI.
  assert (N : entries A <> []) by (intro E; rewrite E in EC; cbn in EC; lia).
  assert (R : 0 < sp_rows A /\ 0 < sp_cols A). { destruct (entries A) as [|[[i j] v] es]; [congruence|]. destruct (EI i j v ltac:(left; reflexivity)). lia. }
  destruct (mmload_ok K sz mem_ok fmte strtod HF L mm (has flags MM_SYMMETRIC) (sp_rows A) (sp_cols A) (entries A) rest) as (A' & E & A1 & A2 & A3 & A4 & A5 & A6 & A7); auto; try lia.
  { apply Forall_forall. intros [[i j] v] Hin. specialize (EI i j v Hin). unfold small. cbn [fst snd]. lia. } { rewrite EC. exact HM. }
  eexists. exists A'. split; [apply mmdump_ok; auto|]. split; [unfold sp_file in E; rewrite EC in E; exact E|]. split; [exact A7|]. split.
  - intros i j. unfold value. rewrite A7. generalize (entries A). induction l as [|[[p q] v] l IH]; [reflexivity|]. cbn [map fold_right fst snd shift]. rewrite IH. unfold at_pos, shift. cbn [fst snd].
    replace (p - 1 =? i) with (p =? i + 1) by (destruct (Z.eqb_spec p (i + 1)); symmetry; [apply Z.eqb_eq|apply Z.eqb_neq]; lia).
    replace (q - 1 =? j) with (q =? j + 1) by (destruct (Z.eqb_spec q (j + 1)); symmetry; [apply Z.eqb_eq|apply Z.eqb_neq]; lia). reflexivity.
  - intros (i & j & v & Hin & H0) V'. assert (X : In (i - 1, j - 1, v) (entries A')). { rewrite A7. apply in_map_iff. exists (i, j, v). auto. }
    apply (entries_in T A' V') in X. lia.
Qed.
Print Assumptions C69_roundtrip_refuted.

(* A matrix without elements comes back without rows and columns *)
Theorem C69_empty_refuted : forall T (K : num T) sz mem_ok fmte strtod L mm (A : sparse T) flags,
  valid A -> sp_nnz A = 0 -> sp_rows A < 2 ^ 31 -> sp_cols A < 2 ^ 31 ->
  exists text A', armassp_mmdump fmte A flags L mm = Some (text, mm) /\
    armassp_mmload K sz mem_ok strtod text L mm = Some ((Some A', Some (coord_code (has flags MM_SYMMETRIC)), []), mm) /\
    sp_rows A' = 0 /\ sp_cols A' = 0 /\ sp_kind A' = CSC.
Proof.
  intros T K sz mem_ok fmte strtod L mm A flags V Hz Hr Hc. pose proof V as (V1 & V2 & _). pose proof (entries_count T A V) as EC. rewrite Hz in EC.
  assert (N : entries A = []) by (destruct (entries A); [reflexivity|cbn [length] in EC; lia]).
  eexists. eexists. split; [apply mmdump_ok; auto|]. rewrite N, Hz. unfold armassp_mmload. rewrite coord_banner by (right; left; reflexivity). set (sym := has flags MM_SYMMETRIC).
  assert (E1 : has (coord_code sym) MM_MATRIX = true) by (destruct sym; reflexivity). assert (E2 : has (coord_code sym) MM_REAL = true) by (destruct sym; reflexivity).
  assert (E5 : has (coord_code sym) MM_COORDINATE = true) by (destruct sym; reflexivity). rewrite E1, E2, E5. cbn [negb orb]. rewrite size_coord by (auto; lia).
  unfold armassp_new, armassp_init. rewrite Z.eqb_refl, !orb_true_r. cbn [text_of flat_map length sp_loop getline].
  split; [reflexivity|]. split; [reflexivity|]. split; reflexivity.
Qed.
Print Assumptions C69_empty_refuted.

(* the conversions of integers and a matrix in all three formats *)
Definition z_strtod (l : list Z) : Z := fst (strtol l).
Example C69_nonvacuous :
  strtod_text dec z_strtod /\ (forall k, k <> COO -> valid (sa_B k) /\ 0 < sp_nnz (sa_B k) < 2 ^ 31 /\ exists v, In (0, 0, v) (entries (sa_B k))) /\
  (exists text, armassp_mmdump dec (sa_B CSR) 0 (fun _ => true) (fun _ => 0) = Some (text, fun _ => 0) /\
     exists A', armassp_mmload Znum 8 (fun _ => true) z_strtod text (fun _ => true) (fun _ => 0) = Some ((Some A', Some 0x246, []), fun _ => 0) /\
       entries (sa_B CSR) = [(0, 0, 1); (1, 0, 4); (1, 1, 6)] /\ entries A' = [(-1, -1, 1); (0, -1, 4); (0, 0, 6)]) /\
  (exists A', armassp_mmload Znum 8 (fun _ => true) z_strtod (sp_file dec false 2 3 [(2, 3, 5); (1, 1, -4)]) (fun _ => true) (fun _ => 0) = Some ((Some A', Some 0x246, []), fun _ => 0) /\
     entries A' = [(1, 2, 5); (0, 0, -4)]).
Proof.
  split. { intro x. split; [apply dec_nl|]. unfold z_strtod. rewrite strtol_dec by reflexivity. reflexivity. }
  split. { intros k Hk. split; [apply sa_B_ok; auto|]. split; [cbn; lia|]. exists 1. destruct k; try congruence; vm_compute; auto. }
  split.
  - eexists. split; [vm_compute; reflexivity|]. eexists. split; [vm_compute; reflexivity|]. split; vm_compute; reflexivity.
  - eexists. split; vm_compute; reflexivity.
Qed.
