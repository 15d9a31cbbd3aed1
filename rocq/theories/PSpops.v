(* PSpops.v: the operations of MSparse.v on valid matrices. *)
From Coq Require Import ZArith List Bool Lia Sorting.Permutation Sorting.Sorted Ring.
From Verif Require Import Mem MView SpecView PView MNum SpecNum Hoare MFlags MSparse SpecSparse PFrame PSparse PSpsort PSpconv.
Import ListNotations.
Local Open Scope Z_scope.
Local Open Scope prog_scope.
Ltac lia := first [zlia | Lia.lia].

Section Ops.
  Context {T : Type} (K : num T) (sz : Z) (mem_ok : Z -> bool).
  Notation sparse := (sparse T).

  (* the parts of [valid] for a compressed matrix *)
  Lemma valid_cs : forall A : sparse, valid A -> sp_kind A <> COO ->
    0 <= sp_rows A /\ 0 <= sp_cols A /\ 0 <= nlines A /\ 0 <= linelen A /\ 0 <= sp_nnz A <= sp_size A /\
    sp_nptr A = nlines A /\
    alen (sp_v A) = sp_size A /\ alen (sp_ix A) = sp_size A /\ alen (sp_ptr A) = nlines A + 1 /\
    aget (sp_ptr A) 0 = 0 /\ aget (sp_ptr A) (nlines A) = sp_nnz A /\
    (forall j, 0 <= j < nlines A -> aget (sp_ptr A) j <= aget (sp_ptr A) (j + 1)) /\
    (forall p, 0 <= p < sp_nnz A -> 0 <= aget (sp_ix A) p < linelen A).
  Proof.
    intros A V Hk. unfold valid in V. unfold nlines, linelen in *.
    destruct (sp_kind A); try congruence; destruct V as (?&?&?&?&?&?&?&?&?&?&?); repeat (split; auto).
  Qed.

  Lemma cs_valid : forall A : sparse, sp_kind A <> COO ->
    0 <= sp_rows A -> 0 <= sp_cols A -> 0 <= sp_nnz A <= sp_size A ->
    sp_nptr A = nlines A ->
    alen (sp_v A) = sp_size A -> alen (sp_ix A) = sp_size A -> alen (sp_ptr A) = nlines A + 1 ->
    aget (sp_ptr A) 0 = 0 -> aget (sp_ptr A) (nlines A) = sp_nnz A ->
    (forall j, 0 <= j < nlines A -> aget (sp_ptr A) j <= aget (sp_ptr A) (j + 1)) ->
    (forall p, 0 <= p < sp_nnz A -> 0 <= aget (sp_ix A) p < linelen A) -> valid A.
  Proof.
    intros A Hk. intros. unfold valid. destruct (sp_kind A); try congruence; repeat (split; auto).
  Qed.

  (* two matrices that differ in the order of the pairs inside their lines *)
  Lemma lines_perm : forall A B : sparse, sp_kind A <> COO -> sp_kind A = sp_kind B -> sp_nptr A = sp_nptr B ->
    (forall j, 0 <= j < sp_nptr A -> Permutation (line_of A j) (line_of B j)) ->
    Permutation (entries A) (entries B).
  Proof.
    intros A B Hk Ek En H. rewrite !entries_lentries by congruence. rewrite Ek. apply oriented_perm.
    unfold lentries. rewrite <- En. apply Permutation_flat_map_ptwise. intros j Hj. apply zr_in in Hj.
    apply Permutation_map. auto.
  Qed.

  Definition same_head (A B : sparse) : Prop :=
    sp_kind A = sp_kind B /\ sp_rows A = sp_rows B /\ sp_cols A = sp_cols B /\ sp_nnz A = sp_nnz B.

  Lemma sort_wp : forall (A : sparse) L m (Q : sparse -> (Z -> T) -> Prop), valid A -> sp_kind A <> COO ->
    (forall A', valid A' -> same_head A' A -> sp_ptr A' = sp_ptr A -> ascending A' ->
      (forall j, 0 <= j < nlines A -> Permutation (line_of A' j) (line_of A j)) -> Q A' m) ->
    wp (compressed_sort A) L m Q.
  Proof.
    intros A L m Q V Hk HQ. pose proof (valid_cs A V Hk) as (H1&H2&H3&H4&H5&H6&H7&H8&H9&H10&H11&H12&H13).
    apply compressed_sort_wp; rewrite ?H6; auto; try lia. intros ix v Li Lv Hs.
    assert (P : forall j, 0 <= j < nlines A -> Permutation (line_of (sp_with_arrays A v (sp_ptr A) ix) j) (line_of A j)).
    { intros j Hj. apply Hs. auto. }
    set (A' := sp_with_arrays A v (sp_ptr A) ix) in *.
    assert (PE : Permutation (lentries A') (lentries A)).
    { unfold lentries. change (sp_nptr A') with (sp_nptr A). apply Permutation_flat_map_ptwise. intros j Hj. apply zr_in in Hj.
      apply Permutation_map. apply P. lia. }
    apply HQ; auto.
    - apply cs_valid; auto; unfold A'; cbn [sp_with_arrays sp_kind sp_rows sp_cols sp_nnz sp_size sp_nptr sp_v sp_ix sp_ptr]; auto; try lia.
      intros p Hp. change (linelen (sp_with_arrays A v (sp_ptr A) ix)) with (linelen A).
      destruct (find_seg (aget (sp_ptr A)) (nlines A) p H3 ltac:(lia)) as (j & Hj & Hps).
      assert (I : In (aget ix p, aget v p) (line_of A' j)).
      { unfold line_of. apply in_map_iff. exists p. split; [reflexivity|]. apply zr_in. exact Hps. }
      apply (Permutation_in _ (P j Hj)) in I. unfold line_of in I. apply in_map_iff in I as (q & E & Hq).
      apply zr_in in Hq. inversion E as [[E1 E2]].
      pose proof (valid_mono A V Hk 0 j ltac:(lia) ltac:(lia)). pose proof (valid_mono A V Hk (j + 1) (nlines A) ltac:(lia) ltac:(lia)).
      apply H13. lia.
    - repeat split; auto.
    - intros j p q Hj Hp Hq Hr. apply (proj1 (Hs j Hj)); auto.
  Qed.

  (* exchanging rows and columns together with the format *)
  Definition flipk (k : spkind) : spkind := match k with CSC => CSR | CSR => CSC | COO => COO end.

  Lemma flip_shape : forall A : sparse, valid A -> sp_kind A <> COO ->
    let A' := sp_with_shape A (sp_cols A) (sp_rows A) (flipk (sp_kind A)) in
    valid A' /\ sp_kind A' <> COO /\ entries A' = map swap_pos (entries A) /\ (ascending A -> ascending A').
  Proof.
    intros A V Hk A'. pose proof (valid_cs A V Hk) as (H1&H2&H3&H4&H5&H6&H7&H8&H9&H10&H11&H12&H13).
    assert (Hk' : sp_kind A' <> COO) by (unfold A'; cbn [sp_with_shape sp_kind]; destruct (sp_kind A); cbn [flipk]; congruence).
    assert (En : nlines A' = nlines A) by (unfold nlines, A'; cbn [sp_with_shape sp_kind sp_rows sp_cols]; destruct (sp_kind A); try congruence; reflexivity).
    assert (Ew : linelen A' = linelen A) by (unfold linelen, A'; cbn [sp_with_shape sp_kind sp_rows sp_cols]; destruct (sp_kind A); try congruence; reflexivity).
    split; [|split; [auto|split]].
    - apply cs_valid; auto; rewrite ?En, ?Ew; auto.
    - rewrite !entries_lentries by auto. change (lentries A') with (lentries A). change (sp_kind A') with (flipk (sp_kind A)).
      destruct (sp_kind A); cbn [flipk oriented]; try congruence. rewrite map_swap_swap. reflexivity.
    - unfold ascending. rewrite En. intros H. exact H.
  Qed.


  (* what a conversion to a compressed format gives *)
  Definition converted (B : sparse) (target : spkind) (A : sparse) : Prop :=
    valid A /\ sp_kind A = target /\ sp_rows A = sp_rows B /\ sp_cols A = sp_cols B /\ sp_nnz A = sp_nnz B /\
    Permutation (entries A) (entries B) /\ ascending A.

  Lemma new_run : forall r c n k, r <> 0 -> c <> 0 -> n <> 0 ->
    mem_ok (armassp_bytes_needed sz r c n k) = true ->
    armassp_new K sz mem_ok r c n k = Some (armassp_make K sz r c n k).
  Proof.
    intros r c n k Hr Hc Hn Hm. unfold armassp_new, armassp_init.
    replace ((r =? 0) || (c =? 0) || (n =? 0)) with false by lia. rewrite Hm. reflexivity.
  Qed.

  (* the target of armassp_convert_to: room for B, pointers cleared *)
  Lemma convert_to_wp : forall (A B : sparse) target L m (Q : option sparse -> (Z -> T) -> Prop),
    valid B -> target <> COO -> sp_kind B <> target ->
    let n := match target with CSR => sp_rows B | _ => sp_cols B end in
    sp_kind A <> COO -> sp_rows A = sp_rows B -> sp_cols A = sp_cols B ->
    armassp_bytes_needed sz (sp_rows B) (sp_cols B) (sp_nnz B) target <= sp_nbytes A ->
    sp_size A = sp_nnz B -> alen (sp_v A) = sp_nnz B -> alen (sp_ix A) = sp_nnz B -> alen (sp_ptr A) = n + 1 ->
    (sp_kind B = COO -> forall j, 0 <= j <= n -> aget (sp_ptr A) j = 0) ->
    (forall A', converted B target A' -> sp_nptr A' = n -> Q (Some A') m) ->
    wp (armassp_convert_to sz (Some A) B target) L m Q.
  Proof.
    intros A B target L m Q V Ht Hd n HkA Er Ec Hb Es Lv Li Lp Hz HQ.
    assert (D : 0 <= sp_rows B /\ 0 <= sp_cols B /\ 0 <= sp_nnz B <= sp_size B) by (unfold valid in V; destruct V as (?&?&?&_); auto).
    set (w := match target with CSR => sp_cols B | _ => sp_rows B end).
    assert (Hn : 0 <= n) by (unfold n; destruct target; lia).
    assert (Hw : 0 <= w) by (unfold w; destruct target; lia).
    assert (E : armassp_convert_to sz (Some A) B target =
      let A := sp_with_counts A (sp_nnz A) n (sp_kind A) in
      match sp_kind B with
                | COO =>
                    A <- (match target with CSR => csr_convert A B | _ => csc_convert A B end) ;;
                    r <- armassp_sort A ;;
                    ret (Some (snd r))
                | CSC =>
                    match target with
                    | CSR => A <- csc_to_csr A B ;; ret (Some A)
                    | _ => ret (Some A)
                    end
                | CSR =>
                    match target with
                    | CSC => A <- csr_to_csc A B ;; ret (Some A)
                    | _ => ret (Some A)
                    end
                end).
    { unfold armassp_convert_to, armassp_test_alloc, armassp_test_structure.
      replace (armassp_bytes_needed sz (sp_rows B) (sp_cols B) (sp_nnz B) target <=? sp_nbytes A) with true by lia.
      fold n. rewrite Lp, Lv, !Z.eqb_refl.
      destruct target; try congruence; destruct (sp_kind A); try congruence; reflexivity. }
    rewrite E. cbv zeta. set (A1 := sp_with_counts A (sp_nnz A) n (sp_kind A)).
    (* the result of either way of grouping *)
    assert (G : forall ptr ix v items, alen ptr = alen (sp_ptr A1) -> alen ix = alen (sp_ix A1) -> alen v = alen (sp_v A1) ->
      in_lines n w items -> Z.of_nat (length items) = sp_nnz B -> grouped n items ptr ix v ->
      let A' := sp_with_counts (sp_with_arrays A1 v ptr ix) (sp_nnz B) n target in
      valid A' /\ Permutation (entries A') (oriented target items)).
    { intros ptr ix v items Lp' Li' Lv' Hin Hlen Hg A'.
      assert (En : nlines A' = n). { unfold nlines, A', A1, n; cbn. destruct target; try congruence; auto. }
      assert (Ew : linelen A' = w). { unfold linelen, A', A1, w; cbn. destruct target; try congruence; auto. }
      split.
      - apply (grouped_valid n w items); auto; unfold A', A1 in *; cbn in *; try lia.
      - rewrite entries_lentries by auto. apply oriented_perm.
        apply (grouped_lentries n); auto. intros e He. apply Hin; auto. }
    destruct (sp_kind B) eqn:KB.
    - (* CSC -> CSR *)
      assert (target = CSR) by (destruct target; congruence). subst target. unfold csc_to_csr.
      pose proof (valid_cs B V ltac:(congruence)) as (H1&H2&H3&H4&H5&H6&H7&H8&H9&H10&H11&H12&H13).
      assert (NB : nlines B = sp_cols B) by (unfold nlines; rewrite KB; reflexivity).
      assert (WB : linelen B = sp_rows B) by (unfold linelen; rewrite KB; reflexivity).
      rewrite NB, WB in *.
      assert (EF : flip_items B (sp_cols B) = entries B).
      { replace (sp_cols B) with (sp_nptr B). rewrite flip_lentries, entries_lentries by congruence. rewrite KB. reflexivity. }
      wbind. change (sp_rows A1) with (sp_rows A). rewrite Er. apply (cs_flip_wp n (sp_cols B) CSR A1 B (flip_items B (sp_cols B)));
        unfold A1; cbn; auto; try lia.
      intros ptr ix v Lp' Li' Lv' Hg. apply wp_ret. fold A1.
      assert (Hin : in_lines n w (flip_items B (sp_cols B))).
      { rewrite EF, entries_lentries by congruence. rewrite KB. cbn [oriented]. intros e He. apply in_map_iff in He as (x & <- & Hx).
        apply (lentries_in B V ltac:(congruence)) in Hx. rewrite NB, WB in Hx. unfold iline, swap_pos in *. cbn [fst snd]. unfold n, w. tauto. }
      assert (Hlen : Z.of_nat (length (flip_items B (sp_cols B))) = sp_nnz B).
      { rewrite EF, entries_lentries by congruence. rewrite KB. cbn [oriented]. rewrite map_length. apply lentries_length; congruence. }
      destruct (G ptr ix v _ Lp' Li' Lv' Hin Hlen Hg) as [G1 G2]. apply HQ; [|reflexivity].
      split; [exact G1|]. split; [reflexivity|]. split; [exact Er|]. split; [exact Ec|]. split; [reflexivity|]. split.
      + cbn [oriented] in G2. rewrite EF in G2. exact G2.
      + eapply grouped_ascending; [exact Hg| |apply flip_sorted]. unfold nlines; cbn. rewrite Er. reflexivity.
    - (* CSR -> CSC *)
      assert (target = CSC) by (destruct target; congruence). subst target. unfold csr_to_csc.
      pose proof (valid_cs B V ltac:(congruence)) as (H1&H2&H3&H4&H5&H6&H7&H8&H9&H10&H11&H12&H13).
      assert (NB : nlines B = sp_rows B) by (unfold nlines; rewrite KB; reflexivity).
      assert (WB : linelen B = sp_cols B) by (unfold linelen; rewrite KB; reflexivity).
      rewrite NB, WB in *.
      assert (EF : flip_items B (sp_rows B) = map swap_pos (entries B)).
      { replace (sp_rows B) with (sp_nptr B). rewrite flip_lentries, entries_lentries by congruence. rewrite KB. reflexivity. }
      wbind. change (sp_cols A1) with (sp_cols A). rewrite Ec. apply (cs_flip_wp n (sp_rows B) CSC A1 B (flip_items B (sp_rows B)));
        unfold A1; cbn; auto; try lia.
      intros ptr ix v Lp' Li' Lv' Hg. apply wp_ret. fold A1.
      assert (Hin : in_lines n w (flip_items B (sp_rows B))).
      { rewrite EF, entries_lentries by congruence. rewrite KB. cbn [oriented]. intros e He. apply in_map_iff in He as (x & <- & Hx).
        apply (lentries_in B V ltac:(congruence)) in Hx. rewrite NB, WB in Hx. unfold iline, swap_pos in *. cbn [fst snd]. unfold n, w. tauto. }
      assert (Hlen : Z.of_nat (length (flip_items B (sp_rows B))) = sp_nnz B).
      { rewrite EF, entries_lentries by congruence. rewrite KB. cbn [oriented]. rewrite map_length. apply lentries_length; congruence. }
      destruct (G ptr ix v _ Lp' Li' Lv' Hin Hlen Hg) as [G1 G2]. apply HQ; [|reflexivity].
      split; [exact G1|]. split; [reflexivity|]. split; [exact Er|]. split; [exact Ec|]. split; [reflexivity|]. split.
      + cbn [oriented] in G2. rewrite EF, map_swap_swap in G2. exact G2.
      + eapply grouped_ascending; [exact Hg| |apply flip_sorted]. unfold nlines; cbn. rewrite Ec. reflexivity.
    - (* from a coordinate list *)
      assert (VB : alen (sp_ep B) = sp_size B /\ forall k, 0 <= k < sp_nnz B ->
               0 <= ci (aget (sp_ep B) k) < sp_rows B /\ 0 <= cj (aget (sp_ep B) k) < sp_cols B).
      { unfold valid in V. rewrite KB in V. apply V. }
      destruct VB as [LB VB].
      set (line := fun e : coo T => match target with CSR => ci e | _ => cj e end).
      set (other := fun e : coo T => match target with CSR => cj e | _ => ci e end).
      assert (EC : (match target with CSR => csr_convert A1 B | _ => csc_convert A1 B end) = cs_convert line other n n target A1 B).
      { unfold csr_convert, csc_convert, n. change (sp_rows A1) with (sp_rows A). change (sp_cols A1) with (sp_cols A). rewrite Er, Ec.
        unfold line, other. destruct target; try congruence; reflexivity. }
      rewrite EC.
      set (items := map (fun k => let e := aget (sp_ep B) k in (line e, other e, cv e)) (zr 0 (sp_nnz B))).
      assert (Hin : in_lines n w items).
      { intros e He. apply in_map_iff in He as (k & <- & Hk). apply zr_in in Hk. specialize (VB k Hk).
        unfold iline, line, other, n, w. cbn [fst snd]. destruct target; tauto. }
      assert (EO : oriented target items = entries B).
      { unfold entries. rewrite KB. unfold items, oriented, line, other. destruct target; try congruence.
        rewrite map_map. reflexivity. }
      wbind. apply (cs_convert_wp line other n target A1 B items); unfold A1; cbn; auto; try lia.
      { intros e He. apply Hin; auto. }
      intros ptr ix v Lp' Li' Lv' Hg. fold A1.
      assert (Hlen : Z.of_nat (length items) = sp_nnz B) by (unfold items; rewrite map_length, zr_length; lia).
      destruct (G ptr ix v _ Lp' Li' Lv' Hin Hlen Hg) as [G1 G2].
      set (A2 := sp_with_counts (sp_with_arrays A1 v ptr ix) (sp_nnz B) n target) in *.
      assert (ES : armassp_sort A2 = (A' <- compressed_sort A2 ;; ret (0, A'))).
      { unfold armassp_sort. change (sp_kind A2) with target. destruct target; try congruence; reflexivity. }
      rewrite ES. wbind. wbind. apply sort_wp; [exact G1|exact Ht|].
      intros A3 V3 (S1 & S2 & S3 & S4) Sp Asc P. apply wp_ret. apply wp_ret. cbn [snd].
      pose proof (valid_cs A2 G1 Ht) as (H1&H2&H3&H4&H5&H6&_).
      assert (K3 : sp_kind A3 <> COO) by (rewrite S1; exact Ht).
      pose proof (valid_cs A3 V3 K3) as (_&_&_&_&_&H6'&_).
      assert (N3 : nlines A3 = nlines A2) by (unfold nlines; rewrite S1, S2, S3; reflexivity).
      apply HQ.
      + split; [exact V3|]. split; [rewrite S1; reflexivity|]. split; [rewrite S2; exact Er|]. split; [rewrite S3; exact Ec|].
        split; [rewrite S4; reflexivity|]. split; [|exact Asc].
        etransitivity; [|rewrite <- EO; exact G2]. apply lines_perm; auto; rewrite H6', N3; auto.
      + rewrite H6', N3, <- H6. reflexivity.
  Qed.

  Lemma convert_wp : forall (B : sparse) target L m (Q : option sparse -> (Z -> T) -> Prop),
    valid B -> target <> COO -> sp_kind B <> target ->
    sp_rows B <> 0 -> sp_cols B <> 0 -> sp_nnz B <> 0 ->
    mem_ok (armassp_bytes_needed sz (sp_rows B) (sp_cols B) (sp_nnz B) target) = true ->
    (forall A', converted B target A' -> Q (Some A') m) ->
    wp (armassp_convert K sz mem_ok B target) L m Q.
  Proof.
    intros B target L m Q V Ht Hd Hr Hc Hn Hm HQ. unfold armassp_convert. rewrite new_run by auto.
    apply convert_to_wp; auto; unfold armassp_make; destruct target; try congruence; cbn; auto; try lia.
  Qed.

  Lemma transpose_wp : forall (B : sparse) L m (Q : option sparse -> (Z -> T) -> Prop),
    valid B -> sp_kind B <> COO ->
    sp_rows B <> 0 -> sp_cols B <> 0 -> sp_nnz B <> 0 ->
    mem_ok (armassp_bytes_needed sz (sp_rows B) (sp_cols B) (sp_nnz B) (flipk (sp_kind B))) = true ->
    (forall A', valid A' -> sp_kind A' = sp_kind B -> sp_rows A' = sp_cols B -> sp_cols A' = sp_rows B ->
      sp_nnz A' = sp_nnz B -> Permutation (entries A') (map swap_pos (entries B)) -> ascending A' -> Q (Some A') m) ->
    wp (armassp_transpose K sz mem_ok B) L m Q.
  Proof.
    intros B L m Q V Hk Hr Hc Hn Hm HQ. unfold armassp_transpose.
    replace (match sp_kind B with CSC => CSR | _ => CSC end) with (flipk (sp_kind B)) by (destruct (sp_kind B); try congruence; reflexivity).
    rewrite new_run by auto. unfold armassp_transpose_to.
    assert (X : wp (r <- armassp_convert_to sz (Some (armassp_make K sz (sp_rows B) (sp_cols B) (sp_nnz B) (flipk (sp_kind B)))) B (flipk (sp_kind B)) ;;
       match r with None => ret None | Some A => ret (Some (sp_with_shape A (sp_cols B) (sp_rows B) (sp_kind B))) end) L m Q).
    { wbind. apply convert_to_wp; auto.
      - destruct (sp_kind B); cbn; congruence.
      - destruct (sp_kind B); cbn; congruence.
      - unfold armassp_make. destruct (sp_kind B); cbn; congruence.
      - unfold armassp_make. destruct (sp_kind B); reflexivity.
      - unfold armassp_make. destruct (sp_kind B); reflexivity.
      - unfold armassp_make. destruct (sp_kind B); cbn; lia.
      - unfold armassp_make. destruct (sp_kind B); cbn; lia.
      - unfold armassp_make. destruct (sp_kind B); cbn; try congruence; lia.
      - unfold armassp_make. destruct (sp_kind B); cbn; try congruence; lia.
      - unfold armassp_make. destruct (sp_kind B); cbn; try congruence; lia.
      - intros E. congruence.
      - intros A' (C1 & C2 & C3 & C4 & C5 & C6 & C7) _. apply wp_ret.
        assert (Hk' : sp_kind A' <> COO) by (rewrite C2; destruct (sp_kind B); cbn; congruence).
        destruct (flip_shape A' C1 Hk') as (F1 & F2 & F3 & F4).
        assert (EA : sp_with_shape A' (sp_cols B) (sp_rows B) (sp_kind B) =
                     sp_with_shape A' (sp_cols A') (sp_rows A') (flipk (sp_kind A'))).
        { rewrite C3, C4, C2. destruct (sp_kind B); try congruence; reflexivity. }
        rewrite EA. apply HQ; auto.
        + cbn. rewrite C2. destruct (sp_kind B); try congruence; reflexivity.
        + rewrite F3. apply Permutation_map. exact C6. }
    destruct (sp_kind B) eqn:KB; try congruence; exact X.
  Qed.
End Ops.
