(* Properties_Mm.v: properties C47 and C69, Matrix Market files. *)
From Coq Require Import String Ascii.
From Coq Require Import ZArith Bool List Lia.
From Verif Require Import MBase Mem MNum MFlags MSparse SpecNum SpecSparse SpecJson MIo MMm Hoare PIo PJsonw PSparse PMm Inst.
Import ListNotations.
Local Open Scope Z_scope.
Ltac lia := Lia.lia.

(* The text of a value is one line, does not look like a comment, and is read back
   as the same value, also after a space: [number_text] of PMm.v *)

Definition array_code (sym : bool) : Z := if sym then 0x2 + 0x20 + 0x4 + 0x80 else 0x2 + 0x20 + 0x4 + 0x200.
Definition coord_code (sym : bool) : Z := if sym then 0x2 + 0x40 + 0x4 + 0x80 else 0x2 + 0x40 + 0x4 + 0x200.

Ltac nonl := let H := fresh in intro H; cbn in H; unfold cNL in H; repeat (destruct H as [H|H]; [discriminate H|]); exact H.
Lemma array_banner : forall (sym : bool) f, mmread_banner [MM_REAL; MM_COMPLEX] (codes "%%Matrixmarket matrix array real " ++ (if sym then codes "symmetric" else codes "general") ++ [cNL] ++ f) = (Some (array_code sym), f).
Proof.
  intros sym f. rewrite !app_assoc. apply banner_read. exists (codes "%%Matrixmarket matrix array real " ++ (if sym then codes "symmetric" else codes "general")).
  split; [reflexivity|]. destruct sym; (split; [nonl|]); (split; [cbn; lia|]); split; vm_compute; reflexivity.
Qed.
Lemma coord_banner : forall types (sym : bool) f, In types [[MM_REAL; MM_COMPLEX]; [MM_REAL]] ->
  mmread_banner types (codes "%%Matrixmarket matrix coordinate real " ++ (if sym then codes "symmetric" else codes "general") ++ [cNL] ++ f) = (Some (coord_code sym), f).
Proof.
  intros types sym f Ht. rewrite !app_assoc. apply banner_read. exists (codes "%%Matrixmarket matrix coordinate real " ++ (if sym then codes "symmetric" else codes "general")).
  split; [reflexivity|]. destruct Ht as [<-|[<-|[]]]; destruct sym; (split; [nonl|]); (split; [cbn; lia|]); split; vm_compute; reflexivity.
Qed.

Lemma init_ok : forall T (zero : T) m n, 0 <= m -> 0 <= n -> m * n < 2 ^ 31 -> exists A0, d_init zero m n = Some A0 /\ fits m n A0 /\ forall i j, d_elt A0 i j = zero.
Proof.
  intros T zero m n Hm Hn Hb. unfold d_init, armas_init. destruct ((m <=? 0) || (n <=? 0)) eqn:E.
  - eexists. split; [reflexivity|]. split; [|reflexivity]. unfold fits. cbn [d_rows d_cols d_step a_rows a_cols a_step]. replace (m <? 0) with false by lia. replace (n <? 0) with false by lia.
    split; [auto|]. split; [auto|]. intros. exfalso. lia.
  - rewrite i32_in by nia. eexists. split; [reflexivity|]. split; [|reflexivity]. unfold fits. auto.
Qed.

(* What is written is read back: every element of a general matrix, the lower triangle
   of a symmetric one (the upper triangle is zero).  The line after the last element
   is consumed as well *)
Theorem C47_roundtrip : forall T (zero : T) fmte sscan, number_text fmte sscan -> forall (A : dmat T) dflags lflags rest junk,
  let sym := has dflags ARMAS_SYMM in
  0 <= d_rows A < 2 ^ 31 -> 0 <= d_cols A < 2 ^ 31 -> d_rows A * d_cols A < 2 ^ 31 ->
  (sym = true -> d_rows A = d_cols A /\ d_cols A * (d_cols A + 1) < 2 ^ 31) ->
  exists A', armas_mmload zero sscan lflags (armas_mmdump fmte A dflags ++ rest) junk = Some (mkmm (array_code sym) lflags (Some A') (next_line rest)) /\
    d_rows A' = d_rows A /\ d_cols A' = d_cols A /\
    forall i j, 0 <= i < d_rows A -> 0 <= j < d_cols A -> d_elt A' i j = if sym && (i <? j) then zero else d_elt A i j.
Proof.
  intros T zero fmte sscan HF A dflags lflags rest junk sym Hr Hc Hrc Hs. unfold armas_mmload, armas_mmdump. fold sym. clearbody sym. rewrite <- !app_assoc.
  rewrite array_banner. destruct (init_ok T zero (d_rows A) (d_cols A) ltac:(lia) ltac:(lia) Hrc) as (A0 & EA & Fi & Z0).
  set (cells := flat_map _ (mm_cells sym (d_rows A) (d_cols A))).
  assert (E1 : has (array_code sym) MM_MATRIX = true) by (destruct sym; reflexivity). assert (E2 : has (array_code sym) MM_REAL = true) by (destruct sym; reflexivity).
  assert (E3 : has (array_code sym) MM_SYMMETRIC = sym) by (destruct sym; reflexivity). assert (E4 : has (array_code sym) MM_ARRAY = true) by (destruct sym; reflexivity).
  assert (E5 : has (array_code sym) MM_COORDINATE = false) by (destruct sym; reflexivity).
  rewrite E1, E2. cbn [negb orb]. rewrite size_array by (auto; lia). cbn [obind]. rewrite E3, E4, EA. cbn [obind].
  assert (B0 : filled (d_rows A) (d_cols A) (d_elt A) A0 A0 (fun _ _ => False)).
  { destruct Fi as (F1 & F2 & _). split; [auto|]. split; [auto|]. split; [auto|]. intros i j _ _. split; [tauto|auto]. }
  destruct sym.
  - destruct (Hs eq_refl) as [Esq Hb]. rewrite Esq, Z.eqb_refl. cbn [negb andb]. rewrite i32_in by nia. cbn [obind].
    set (nelem := Z.quot (d_cols A * (d_cols A + 1)) 2).
    assert (En : 2 * nelem = d_cols A * (d_cols A + 1)).
    { unfold nelem. rewrite Z.quot_div_nonneg by nia. assert (X : (d_cols A * (d_cols A + 1)) mod 2 = 0).
      { rewrite Zmod_even. replace (Z.even (d_cols A * (d_cols A + 1))) with true; [reflexivity|]. rewrite Z.even_mul, Z.even_add. destruct (Z.even (d_cols A)); reflexivity. }
      pose proof (Z.div_mod (d_cols A * (d_cols A + 1)) 2). lia. }
    destruct (sym_all fmte sscan HF (array_code true) (d_cols A) (d_cols A) nelem (d_elt A) eq_refl ltac:(lia) ltac:(lia) ltac:(auto) eq_refl A0
                ltac:(rewrite <- Esq at 1; exact Fi) (d_cols A) ltac:(lia) ltac:(lia) (S (length (cells ++ rest))) rest (mkls 0 (-1) 0 (d_cols A) junk A0)) as (f' & s' & U1 & U2 & U3 & U4).
    + cbn [l_A]. eapply filled_ext; [|rewrite Esq in B0; exact B0]. intros p q Hp Hq. cbn beta. lia.
    + left. cbn [l_k l_r l_c l_nc]. lia.
    + cbn [l_k]. lia.
    + replace (d_cols A - d_cols A) with 0 by lia. unfold cells, mm_cells. rewrite Esq. apply Nat.lt_succ_diag_r.
    + replace (d_cols A - d_cols A) with 0 in U4 by lia. replace (flat_map _ (flat_map _ (zr 0 (d_cols A)))) with cells in U4 by (unfold cells, mm_cells; rewrite Esq; reflexivity). rewrite U4, (loop_stop _ _ _ _ _ _ _ _ U1 U3). cbn [obind]. rewrite U3, Z.eqb_refl.
      exists (l_A s'). split; [reflexivity|]. destruct U2 as (V1 & V2 & V3 & V4). split; [congruence|]. split; [congruence|]. intros i j Hi Hj. destruct (V4 i j ltac:(lia) Hj) as [W1 W2].
      cbn [andb]. destruct (Z.ltb_spec i j); [rewrite W2 by lia; apply Z0|apply W1; lia].
  - cbn [andb]. rewrite i32_in by nia. cbn [obind].
    destruct (general_all fmte sscan HF (array_code false) (d_rows A) (d_cols A) (d_rows A * d_cols A) (d_elt A) eq_refl ltac:(lia) ltac:(lia) eq_refl A0 Fi eq_refl
                (d_cols A) ltac:(lia) ltac:(lia) (S (length (cells ++ rest))) rest (mkls 0 (-1) 0 (d_rows A) junk A0)) as (f' & s' & U1 & U2 & U3 & U4).
    + cbn [l_A]. eapply filled_ext; [|exact B0]. intros p q Hp Hq. cbn beta. lia.
    + cbn [l_k]. lia.
    + reflexivity.
    + replace (d_cols A - d_cols A) with 0 by lia. apply Nat.lt_succ_diag_r.
    + replace (d_cols A - d_cols A) with 0 in U4 by lia. replace (flat_map _ (flat_map _ (zr 0 (d_cols A)))) with cells in U4 by reflexivity. rewrite U4, (loop_stop _ _ _ _ _ _ _ _ U1 U3). cbn [obind]. rewrite U3, Z.eqb_refl.
      exists (l_A s'). split; [reflexivity|]. destruct U2 as (V1 & V2 & V3 & V4). split; [congruence|]. split; [congruence|]. intros i j Hi Hj. destruct (V4 i j Hi Hj) as [W1 W2].
      cbn [andb]. apply W1. exact Logic.I.
Qed.
Print Assumptions C47_roundtrip.

(* Two matrices written one after the other: the second cannot be read, because its
   banner has been consumed *)
Theorem C47_second_load_fails : forall T (zero : T) fmte sscan, number_text fmte sscan -> forall (A B : dmat T) dA dB lflags rest junk,
  0 <= d_rows A < 2 ^ 31 -> 0 <= d_cols A < 2 ^ 31 -> d_rows A * d_cols A < 2 ^ 31 ->
  (has dA ARMAS_SYMM = true -> d_rows A = d_cols A /\ d_cols A * (d_cols A + 1) < 2 ^ 31) -> 0 <= d_rows B ->
  exists r r', armas_mmload zero sscan lflags (armas_mmdump fmte A dA ++ armas_mmdump fmte B dB ++ rest) junk = Some r /\ 0 < mm_ret r /\
    armas_mmload zero sscan lflags (mm_rest r) junk = Some r' /\ mm_ret r' = -1 /\ mm_A r' = None.
Proof.
  intros T zero fmte sscan HF A B dA dB lflags rest junk H1 H2 H3 H4 HB.
  destruct (C47_roundtrip T zero fmte sscan HF A dA lflags (armas_mmdump fmte B dB ++ rest) junk H1 H2 H3 H4) as (A' & E & _). rewrite E.
  eexists. assert (X : exists f1, mmread_banner [MM_REAL; MM_COMPLEX] (next_line (armas_mmdump fmte B dB ++ rest)) = (None, f1)).
  { unfold armas_mmdump. rewrite <- !app_assoc. set (t := [cSP] ++ dec (d_cols B) ++ _). unfold next_line.
    set (hd1 := codes "%%Matrixmarket matrix array real "). set (hd2 := if has dB ARMAS_SYMM then codes "symmetric" else codes "general").
    replace (hd1 ++ hd2 ++ [cNL] ++ dec (d_rows B) ++ t) with ((hd1 ++ hd2) ++ cNL :: dec (d_rows B) ++ t) by (rewrite <- !app_assoc; reflexivity).
    rewrite split_line_app; [|unfold hd1, hd2; destruct (has dB ARMAS_SYMM); nonl]. cbn [snd]. unfold mmread_banner, fgets.
    destruct (dec (d_rows B) ++ t) as [|c l] eqn:E1; [apply app_eq_nil in E1; destruct E1 as [_ E1]; discriminate E1|].
    set (iob := if Z.of_nat (length (fst (split_line (c :: l)))) <=? 511 then split_line (c :: l) else (firstn 511 (c :: l), skipn 511 (c :: l))).
    assert (P : nth 0 (c :: l) 0 <> cPCT /\ nth 1 (c :: l) 0 <> cPCT). { rewrite <- E1. unfold t. cbn [app]. split; apply dec_head; auto. }
    assert (Q : nth 0 (fst iob) 0 <> cPCT /\ nth 1 (fst iob) 0 <> cPCT).
    { unfold iob. destruct (_ <=? 511).
      - cbn [split_line] in *. destruct (Z.eqb_spec c cNL); [cbn [fst nth]; split; [apply (proj1 P)|discriminate]|]. cbn [fst nth] in *. split; [apply (proj1 P)|].
        destruct l as [|d l]; cbn [split_line]; [discriminate|]. destruct (Z.eqb_spec d cNL); cbn [fst nth] in *; [subst; discriminate|apply (proj2 P)].
      - cbn [fst]. change 511%nat with (S (S 509)). cbn [firstn nth]. split; [apply (proj1 P)|]. destruct l; [discriminate|]. cbn [firstn nth] in *. apply (proj2 P). }
    exists (snd iob). replace (if Z.of_nat (length (fst (split_line (c :: l)))) <=? 511 then Some (split_line (c :: l)) else Some (firstn 511 (c :: l), skipn 511 (c :: l))) with (Some iob) by (unfold iob; destruct (_ <=? 511); reflexivity).
    destruct iob as [b f']. cbn [fst snd] in *. replace (nth 0 b 0 =? cPCT) with false by lia. replace (nth 1 b 0 =? cPCT) with false by lia. reflexivity. }
  destruct X as (f1 & X). exists (mkmm (-1) lflags None f1). split; [reflexivity|]. split; [cbn [mm_ret]; unfold array_code; destruct (has dA ARMAS_SYMM); lia|].
  cbn [mm_rest]. unfold armas_mmload. rewrite X. split; [reflexivity|]. split; reflexivity.
Qed.
Print Assumptions C47_second_load_fails.

(* The documentation promises 0 on success and the layout in *flags: the return value
   is never 0 and *flags is never set *)
Theorem C47_result : forall T (zero : T) sscan lflags f junk r, armas_mmload zero sscan lflags f junk = Some r ->
  mm_flags r = lflags /\ mm_ret r <> 0 /\ (0 <= mm_ret r -> has (mm_ret r) MM_MATRIX = true /\ has (mm_ret r) MM_REAL = true).
Proof.
  intros T zero sscan lflags f junk r H. unfold armas_mmload in H. destruct (mmread_banner _ f) as [[tc|] f1]; [|injection H as <-; cbn; lia].
  destruct (has tc MM_MATRIX) eqn:E1; cbn [negb orb] in H; [|injection H as <-; cbn; lia].
  destruct (has tc MM_REAL) eqn:E2; cbn [negb] in H; [|injection H as <-; cbn; lia].
  destruct (mmread_size f1 tc) as [[[[m n] nnz] f2]|]; [|discriminate H]. cbn [obind] in H.
  destruct (has tc MM_SYMMETRIC && negb (m =? n)); [injection H as <-; cbn; lia|].
  destruct (d_init zero m n); [|discriminate H]. cbn [obind] in H.
  match type of H with obind ?e _ = _ => destruct e as [nelem|] end; [|discriminate H]. cbn [obind] in H.
  match type of H with obind ?e _ = _ => destruct e as [[s f3]|] end; [|discriminate H]. cbn [obind] in H. injection H as <-. cbn [mm_flags mm_ret].
  split; [reflexivity|]. destruct (l_k s =? nelem); [|lia]. split; [|auto]. intros ->. discriminate E1.
Qed.
Print Assumptions C47_result.

(* Coordinate files.  Elements outside of the matrix are ignored; of several elements
   for one position the last one counts *)
Definition coord_file {T} (fmte : T -> list Z) (sym : bool) (m n : Z) (es : list (Z * Z * T)) : list Z :=
  codes "%%Matrixmarket matrix coordinate real " ++ (if sym then codes "symmetric" else codes "general") ++ [cNL] ++
  dec m ++ [cSP] ++ dec n ++ [cSP] ++ dec (Z.of_nat (length es)) ++ [cNL] ++
  flat_map (fun e => dec (fst (fst e)) ++ [cSP] ++ dec (snd (fst e)) ++ [cSP] ++ fmte (snd e) ++ [cNL]) es.
Definition last_at {T} (es : list (Z * Z * T)) (i j : Z) (d : T) : T :=
  fold_left (fun a e => if (fst (fst e) =? i) && (snd (fst e) =? j) then snd e else a) es d.

Lemma scan_dec : forall n r, 0 <= n -> (match r with [] => True | c :: _ => isdigit c = false end) -> scan_d (dec n ++ r) = (Got n, r) /\ scan_d (cSP :: dec n ++ r) = (Got n, r).
Proof.
  intros n r Hn Hr. pose proof (strtol_dec n r Hr) as HS. destruct (dec_head n r Hn) as (H1 & H2 & _). unfold scan_d.
  destruct (dec n ++ r) as [|c l] eqn:E; [discriminate H1|]. cbn [nth] in *.
  assert (Hs : isspace c = false) by (unfold isdigit, isspace in *; lia).
  assert (Hp : strtol (cSP :: c :: l) = strtol (c :: l)).
  { unfold strtol at 1 2. change (skipsp (cSP :: c :: l)) with (skipsp (c :: l)). cbn [skipsp]. rewrite Hs.
    assert (Hc : 48 <= c <= 57) by (unfold isdigit in H1; lia). replace (c =? cMINUS) with false by (unfold cMINUS; lia). replace (c =? cPLUS) with false by (unfold cPLUS; lia).
    rewrite H1. reflexivity. }
  change (skipsp (cSP :: c :: l)) with (skipsp (c :: l)). cbn [skipsp]. rewrite Hs, H1, Hp, HS. auto.
Qed.

Lemma coord_line : forall T fmte (sscan : list Z -> scanned T), number_text fmte sscan -> forall i j v r c v0, 0 <= i < 2 ^ 31 -> 0 <= j < 2 ^ 31 ->
  read_line sscan (dec i ++ [cSP] ++ dec j ++ [cSP] ++ fmte v ++ [cNL]) r c v0 = Some (Some (i, j, v)).
Proof.
  intros T fmte sscan HF i j v r c v0 Hi Hj. unfold read_line.
  destruct (scan_dec i ([cSP] ++ dec j ++ [cSP] ++ fmte v ++ [cNL]) ltac:(lia) ltac:(reflexivity)) as [-> _]. rewrite i32_in by lia. cbn [obind app].
  destruct (scan_dec j (cSP :: fmte v ++ [cNL]) ltac:(lia) ltac:(reflexivity)) as [_ ->]. rewrite i32_in by lia. cbn [obind]. destruct (HF v) as (_ & _ & _ & ->). reflexivity.
Qed.

Lemma coord_loop : forall T fmte (sscan : list Z -> scanned T), number_text fmte sscan -> forall tc m n nelem, has tc MM_ARRAY = false -> 0 <= m -> 0 <= n -> forall es fuel f s,
  Forall (fun e => 1 <= fst (fst e) < 2 ^ 31 /\ 1 <= snd (fst e) < 2 ^ 31) es -> fits m n (l_A s) -> nelem = l_k s + Z.of_nat (length es) ->
  (length (flat_map (fun e => dec (fst (fst e)) ++ [cSP] ++ dec (snd (fst e)) ++ [cSP] ++ fmte (snd e) ++ [cNL]) es ++ f) < fuel)%nat ->
  exists fuel' s', (length f < fuel')%nat /\ l_k s' = nelem /\ fits m n (l_A s') /\
    (forall i j, 0 <= i < m -> 0 <= j < n -> d_elt (l_A s') i j = last_at es (i + 1) (j + 1) (d_elt (l_A s) i j)) /\
    mm_loop sscan fuel tc m nelem (flat_map (fun e => dec (fst (fst e)) ++ [cSP] ++ dec (snd (fst e)) ++ [cSP] ++ fmte (snd e) ++ [cNL]) es ++ f) s = mm_loop sscan fuel' tc m nelem f s'.
Proof.
  intros T fmte sscan HF tc m n nelem Ht Hm Hn. induction es as [|[[i j] v] es IH]; intros fuel f s HE Fi Ne Hf.
  - cbn [flat_map app length] in *. exists fuel, s. split; [lia|]. split; [lia|]. split; [auto|]. split; [reflexivity|reflexivity].
  - inversion HE as [|? ? [Hi Hj] HE']; subst. cbn [flat_map fst snd] in *. set (tail := flat_map _ es) in *. set (line := dec i ++ [cSP] ++ dec j ++ [cSP] ++ fmte v) in *.
    assert (EL : forall x, (dec i ++ [cSP] ++ dec j ++ [cSP] ++ fmte v ++ [cNL]) ++ x = line ++ cNL :: x) by (intro x; unfold line; rewrite <- !app_assoc; reflexivity).
    rewrite <- app_assoc, EL in *. destruct fuel as [|fuel]; [lia|]. cbn [mm_loop].
    rewrite getline_app; [|destruct (HF v) as (G & _); unfold line; repeat apply in_app3; auto using dec_nl, sp_nl]. cbn [length] in *.
    replace (l_k s <? _) with true by lia.
    assert (EL' : line ++ [cNL] = dec i ++ [cSP] ++ dec j ++ [cSP] ++ fmte v ++ [cNL]) by (unfold line; rewrite <- !app_assoc; reflexivity).
    assert (N0 : nth 0 (line ++ [cNL]) 0 =? cPCT = false). { rewrite EL'. apply Z.eqb_neq. apply dec_head. lia. }
    rewrite N0. unfold mm_line. rewrite Ht, EL', (coord_line T fmte sscan HF) by lia. cbn [obind].
    destruct Fi as (F1 & F2 & F3).
    assert (X : exists A', (if (0 <=? i - 1) && (i - 1 <? d_rows (l_A s)) && (0 <=? j - 1) && (j - 1 <? d_cols (l_A s)) then d_set (l_A s) (i - 1) (j - 1) v else Some (l_A s)) = Some A' /\ fits m n A' /\
      forall p q, 0 <= p < m -> 0 <= q < n -> d_elt A' p q = if (i =? p + 1) && (j =? q + 1) then v else d_elt (l_A s) p q).
    { rewrite F1, F2. destruct ((0 <=? i - 1) && (i - 1 <? m) && (0 <=? j - 1) && (j - 1 <? n)) eqn:E.
      - specialize (F3 ltac:(lia) ltac:(lia)). unfold d_set. rewrite F1, F2, F3. replace ((0 <=? i - 1 + (j - 1) * m) && (i - 1 + (j - 1) * m <? m * n)) with true by nia.
        eexists. split; [reflexivity|]. split; [unfold fits; auto|]. intros p q Hp Hq. unfold d_elt. cbn [d_mem d_step]. rewrite F3.
        destruct (Z.eqb_spec (p + q * m) (i - 1 + (j - 1) * m)) as [E2|E2].
        + assert (q = j - 1) by nia. assert (p = i - 1) by nia. replace ((i =? p + 1) && (j =? q + 1)) with true by lia. reflexivity.
        + destruct (Z.eqb_spec i (p + 1)), (Z.eqb_spec j (q + 1)); try reflexivity. exfalso. apply E2. subst. f_equal; [lia|]. f_equal. lia.
      - exists (l_A s). split; [reflexivity|]. split; [unfold fits; auto|]. intros p q Hp Hq. replace ((i =? p + 1) && (j =? q + 1)) with false by lia. reflexivity. }
    destruct X as (A' & -> & FA & VA). cbn [obind].
    destruct (IH fuel f (mkls (l_k s + 1) (i - 1) (j - 1) (l_nc s) v A')) as (f' & s' & U1 & U2 & U3 & U4 & U5); cbn [l_A l_k]; auto; try lia.
    { rewrite app_length in Hf. cbn [length] in Hf. lia. }
    exists f', s'. split; [lia|]. split; [cbn [l_k] in U2; lia|]. split; [auto|]. split.
    { intros p q Hp Hq. rewrite U4 by auto. cbn [l_A]. unfold last_at. cbn [fold_left fst snd]. rewrite VA by auto. reflexivity. }
    rewrite <- U5. f_equal.
Qed.

Theorem C47_coordinate : forall T (zero : T) fmte sscan, number_text fmte sscan -> forall sym m n es lflags rest junk,
  0 <= m < 2 ^ 31 -> 0 <= n < 2 ^ 31 -> m * n < 2 ^ 31 -> Z.of_nat (length es) < 2 ^ 31 -> (sym = true -> m = n) ->
  Forall (fun e => 1 <= fst (fst e) < 2 ^ 31 /\ 1 <= snd (fst e) < 2 ^ 31) es ->
  exists A', armas_mmload zero sscan lflags (coord_file fmte sym m n es ++ rest) junk = Some (mkmm (coord_code sym) lflags (Some A') (next_line rest)) /\
    d_rows A' = m /\ d_cols A' = n /\ forall i j, 0 <= i < m -> 0 <= j < n -> d_elt A' i j = last_at es (i + 1) (j + 1) zero.
Proof.
  intros T zero fmte sscan HF sym m n es lflags rest junk Hm Hn Hmn Hz Hs HE. unfold armas_mmload, coord_file. rewrite <- !app_assoc.
  rewrite coord_banner by (left; reflexivity). destruct (init_ok T zero m n ltac:(lia) ltac:(lia) Hmn) as (A0 & EA & Fi & Z0).
  assert (E1 : has (coord_code sym) MM_MATRIX = true) by (destruct sym; reflexivity). assert (E2 : has (coord_code sym) MM_REAL = true) by (destruct sym; reflexivity).
  assert (E3 : has (coord_code sym) MM_SYMMETRIC = sym) by (destruct sym; reflexivity). assert (E4 : has (coord_code sym) MM_ARRAY = false) by (destruct sym; reflexivity).
  assert (E5 : has (coord_code sym) MM_COORDINATE = true) by (destruct sym; reflexivity).
  rewrite E1, E2. cbn [negb orb]. rewrite size_coord by (auto; lia). cbn [obind]. rewrite E3, E4, EA.
  assert (Esq : sym && negb (m =? n) = false) by (destruct sym; auto; rewrite (Hs eq_refl), Z.eqb_refl; reflexivity). rewrite Esq. cbn [obind].
  destruct (coord_loop T fmte sscan HF (coord_code sym) m n (Z.of_nat (length es)) E4 ltac:(lia) ltac:(lia) es _ rest (mkls 0 (-1) 0 m junk A0) HE Fi eq_refl (Nat.lt_succ_diag_r _)) as (f' & s' & U1 & U2 & U3 & U4 & U5).
  rewrite U5, (loop_stop _ _ _ _ _ _ _ _ U1 U2). cbn [obind]. rewrite U2, Z.eqb_refl. exists (l_A s'). split; [reflexivity|]. destruct U3 as (V1 & V2 & _). split; [auto|]. split; [auto|].
  intros i j Hi Hj. rewrite U4 by auto. cbn [l_A]. rewrite Z0. reflexivity.
Qed.
Print Assumptions C47_coordinate.

(* Every number is an example: the conversions of integers *)
Definition z_scan (l : list Z) : scanned Z := match scan_d l with (Got v, _) => Got v | (NoMatch, _) => NoMatch | (AtEnd, _) => AtEnd end.
Definition mm_A0 : dmat nat := mkdmat 3 3 4 (fun q => Z.to_nat (100 + q)).
Definition n_fmt (v : nat) : list Z := dec (Z.of_nat v).
Definition n_scan (l : list Z) : scanned nat := match z_scan l with Got v => Got (Z.to_nat v) | NoMatch => NoMatch | AtEnd => AtEnd end.
Example C47_nonvacuous :
  number_text n_fmt n_scan /\
  (exists A', armas_mmload O n_scan 0 (armas_mmdump n_fmt mm_A0 0 ++ codes "more") 7%nat = Some (mkmm 0x226 0 (Some A') []) /\ d_elt A' 2 1 = 106%nat /\ d_elt A' 1 2 = 109%nat) /\
  (exists A', armas_mmload O n_scan 0 (armas_mmdump n_fmt mm_A0 ARMAS_SYMM) 7%nat = Some (mkmm 0xa6 0 (Some A') []) /\ d_elt A' 2 1 = 106%nat /\ d_elt A' 1 2 = 0%nat) /\
  (exists A', armas_mmload O n_scan 0 (coord_file n_fmt false 2 3 [(2, 3, 5%nat); (1, 1, 4%nat); (9, 1, 8%nat); (2, 3, 6%nat)]) 7%nat = Some (mkmm 0x246 0 (Some A') []) /\
     d_elt A' 1 2 = 6%nat /\ d_elt A' 0 0 = 4%nat /\ d_elt A' 1 0 = 0%nat).
Proof.
  split.
  { intro x. unfold n_fmt, n_scan, z_scan. split; [apply dec_nl|]. split.
    { pose proof (dec_head (Z.of_nat x) [] ltac:(lia)) as (_ & H & _). rewrite app_nil_r in H. exact H. }
    destruct (scan_dec (Z.of_nat x) [cNL] ltac:(lia) ltac:(reflexivity)) as [-> ->]. rewrite Nat2Z.id. auto. }
  split; [|split]; eexists; (split; [vm_compute; reflexivity|]); repeat match goal with |- _ /\ _ => split end; vm_compute; reflexivity.
Qed.

(* A line without a number takes the value of the line before, and the load succeeds *)
Theorem C47_garbage_accepted :
  exists A', armas_mmload O n_scan 0 (codes "%%MatrixMarket matrix array real general" ++ [cNL] ++ codes "2 1" ++ [cNL] ++ codes "5" ++ [cNL] ++ codes "oops" ++ [cNL]) 7%nat = Some (mkmm 0x226 0 (Some A') []) /\
    d_elt A' 0 0 = 5%nat /\ d_elt A' 1 0 = 5%nat.
Proof. eexists. split; [vm_compute; reflexivity|]. split; vm_compute; reflexivity. Qed.
Print Assumptions C47_garbage_accepted.
