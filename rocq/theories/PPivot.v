(* PPivot.v: lemmas on pivoting. *)
From Coq Require Import ZArith Lia Bool ZifyBool.
From Verif Require Import Mem MView SpecView PView PSub Hoare MFlags MCopy PUpd PCopy MPivot SpecPivot.
Local Open Scope Z_scope.
Local Open Scope prog_scope.

Section P.
  Context {T : Type}.
  Implicit Types (m : Z -> T) (L : Z -> bool).

  (* the elements of A are moved: the new element (i,j) is the old element phi (i,j) *)
  Definition moved (A : view) (phi : Z -> Z -> Z * Z) m m' : Prop :=
    (forall i j, pos A i j -> elt m' A i j = elt m A (fst (phi i j)) (snd (phi i j))) /\
    only_changes A m m'.

  Lemma moved_id : forall A m, moved A (fun i j => (i, j)) m m.
  Proof. intros A m; split; auto. intros a _; reflexivity. Qed.

  Lemma only_trans : forall A m m1 m2, only_changes A m m1 -> only_changes A m1 m2 -> only_changes A m m2.
  Proof. intros A m m1 m2 H1 H2 a Ha. rewrite H2, H1; auto. Qed.

  Lemma moved_ext : forall A phi phi' m m', (forall i j, pos A i j -> phi i j = phi' i j) ->
    moved A phi m m' -> moved A phi' m m'.
  Proof. intros A phi phi' m m' H (H1 & H2). split; auto. intros i j Hp. rewrite <- H by auto. auto. Qed.

  Lemma moved_trans : forall A phi psi m m1 m2,
    (forall i j, pos A i j -> pos A (fst (psi i j)) (snd (psi i j))) ->
    moved A phi m m1 -> moved A psi m1 m2 ->
    moved A (fun i j => phi (fst (psi i j)) (snd (psi i j))) m m2.
  Proof.
    intros A phi psi m m1 m2 Hp (H1 & O1) (H2 & O2). split; [|eapply only_trans; eauto].
    intros i j Hij. rewrite H2, H1; auto.
  Qed.

  (* a segment of a column (d = true) or of a row of n elements from (r, c) *)
  Definition seg (A : view) (r c : Z) (d : bool) (n : Z) : view :=
    armas_submatrix_unsafe A r c (if d then n else 1) (if d then 1 else n).
  Definition segp (r c : Z) (d : bool) (k : Z) : Z * Z := if d then (r + k, c) else (r, c + k).
  Definition inseg (r c : Z) (d : bool) (n i j : Z) : bool :=
    if d then (j =? c) && (r <=? i) && (i <? r + n) else (i =? r) && (c <=? j) && (j <? c + n).
  Definition segk (r c : Z) (d : bool) (i j : Z) : Z := if d then i - r else j - c.

  Lemma seg_facts : forall L A r c (d : bool) n, wf A -> allocated L A -> 0 <= n -> 0 <= r -> 0 <= c ->
    r + (if d then n else 1) <= rows A -> c + (if d then 1 else n) <= cols A ->
    isvec (seg A r c d n) /\ wf (seg A r c d n) /\ allocated L (seg A r c d n) /\
    vlen (seg A r c d n) = n /\
    (forall m k, 0 <= k < n -> velt m (seg A r c d n) k = elt m A (fst (segp r c d k)) (snd (segp r c d k))) /\
    (forall a, cell (seg A r c d n) a <-> exists k, 0 <= k < n /\ a = mad A (segp r c d k)).
  Proof.
    intros L A r c d n WA LA Hn Hr Hc H1 H2.
    assert (HC : shows (seg A r c d n) A r c (if d then n else 1) (if d then 1 else n)).
    { apply sub_shows; auto; destruct d; lia. }
    destruct HC as (C1 & C2 & C3 & C4 & C5).
    assert (HV : isvec (seg A r c d n)) by (unfold isvec; rewrite C1, C2; destruct d; auto).
    assert (Hl : vlen (seg A r c d n) = n) by (unfold vlen; rewrite C1, C2; destruct d; lia).
    assert (Hk : forall k, 0 <= k < n -> vad (seg A r c d n) k = mad A (segp r c d k)).
    { intros k Hk. unfold vad, vec_pos, mad, segp, seg, armas_submatrix_unsafe, armas_make.
      cbn [rows elems step fst snd].
      destruct d.
      - destruct (n =? 1) eqn:E; cbn [fst snd]; [assert (k = 0) as -> by lia|]; lia.
      - rewrite Z.eqb_refl. cbn [fst snd]. lia. }
    split; [auto|]. split; [auto|]. split; [intros a Ha; apply LA, C4, Ha|]. split; [auto|]. split.
    - intros m k Hk'. rewrite velt_vad, Hk by auto. rewrite elt_mad.
      destruct (segp r c d k); reflexivity.
    - intros a. split.
      + intros Ha. apply vcell_inv in Ha; auto. destruct Ha as (k & Hk' & ->). unfold vdom in Hk'. rewrite Hl in Hk'.
        exists k. split; auto.
      + intros (k & Hk' & ->). rewrite <- Hk by auto. apply vad_cell; auto. unfold vdom. lia.
  Qed.

  Lemma inseg_k : forall r c d n i j, inseg r c d n i j = true <->
    0 <= segk r c d i j < n /\ (i, j) = segp r c d (segk r c d i j).
  Proof.
    intros r c d n i j. unfold inseg, segk, segp. destruct d; split.
    - intros H. split; [lia|f_equal; lia].
    - intros (H1 & H2). injection H2; intros; lia.
    - intros H. split; [lia|f_equal; lia].
    - intros (H1 & H2). injection H2; intros; lia.
  Qed.

  Lemma swap_segs : forall L A r c (d : bool) n r' c' (d' : bool) m (Q : Z -> (Z -> T) -> Prop), wf A -> allocated L A ->
    0 <= n -> 0 <= r -> 0 <= c -> 0 <= r' -> 0 <= c' ->
    r + (if d then n else 1) <= rows A -> c + (if d then 1 else n) <= cols A ->
    r' + (if d' then n else 1) <= rows A -> c' + (if d' then 1 else n) <= cols A ->
    (forall i j, ~ (inseg r c d n i j = true /\ inseg r' c' d' n i j = true)) ->
    (forall m', moved A (fun i j =>
       if inseg r c d n i j then segp r' c' d' (segk r c d i j)
       else if inseg r' c' d' n i j then segp r c d (segk r' c' d' i j) else (i, j)) m m' -> Q 0 m') ->
    wp (armas_swap (seg A r c d n) (seg A r' c' d' n)) L m Q.
  Proof.
    intros L A r c d n r' c' d' m Q WA LA Hn Hr Hc Hr' Hc' B1 B2 B3 B4 HD HQ.
    destruct (seg_facts L A r c d n) as (V & W & AL & Len & El & Ce); auto.
    destruct (seg_facts L A r' c' d' n) as (V' & W' & AL' & Len' & El' & Ce'); auto.
    assert (IN : forall r c (d : bool) k, 0 <= k < n -> 0 <= r -> 0 <= c -> r + (if d then n else 1) <= rows A ->
       c + (if d : bool then 1 else n) <= cols A -> pos A (fst (segp r c d k)) (snd (segp r c d k))).
    { intros. unfold pos, segp. destruct d0; cbn [fst snd]; lia. }
    assert (NC : forall r c (d : bool), 0 <= r -> 0 <= c -> r + (if d then n else 1) <= rows A ->
       c + (if d : bool then 1 else n) <= cols A -> forall i j, pos A i j -> inseg r c d n i j = false ->
       forall k, 0 <= k < n -> mad A (i, j) <> mad A (segp r c d k)).
    { intros r0 c0 d0 X1 X2 X3 X4 i j Hp Hf k Hk E. apply (mad_inj A WA) in E; auto.
      - apply not_true_iff_false in Hf. apply Hf. unfold inseg, segp in *.
        destruct d0; injection E; intros; lia.
      - apply IN; auto. }
    destruct (swap_spec L m (seg A r c d n) (seg A r' c' d' n)) as (m' & E & S1 & S2); auto.
    { intros a Ha Ha'. apply Ce in Ha. apply Ce' in Ha'. destruct Ha as (k & Hk & ->). destruct Ha' as (k' & Hk' & E).
      apply (mad_inj A WA) in E; [|apply IN; auto|apply IN; auto].
      apply (HD (fst (segp r c d k)) (snd (segp r c d k))).
      split; [|rewrite E]; unfold inseg, segp; [destruct d|destruct d']; cbn [fst snd]; lia. }
    { lia. }
    exists 0, m'. split; [exact E|]. apply HQ. split.
    - intros i j Hp. destruct (inseg r c d n i j) eqn:E1; [|destruct (inseg r' c' d' n i j) eqn:E2].
      + apply inseg_k in E1. destruct E1 as (K1 & K2). destruct (S1 (segk r c d i j)) as (S1a & _); [lia|].
        rewrite El, El' in S1a by auto. rewrite <- K2 in S1a. exact S1a.
      + apply inseg_k in E2. destruct E2 as (K1 & K2). destruct (S1 (segk r' c' d' i j)) as (_ & S1b); [lia|].
        rewrite El, El' in S1b by auto. rewrite <- K2 in S1b. exact S1b.
      + cbn [fst snd]. apply S2.
        * intros Ha. apply Ce in Ha. destruct Ha as (k & Hk & Ha).
          apply (NC r c d) with (i := i) (j := j) (k := k); auto.
        * intros Ha. apply Ce' in Ha. destruct Ha as (k & Hk & Ha).
          apply (NC r' c' d') with (i := i) (j := j) (k := k); auto.
    - intros a Ha. apply S2; intros Hc0; apply Ha.
      + apply Ce in Hc0. destruct Hc0 as (k & Hk & ->). 
        replace (segp r c d k) with (fst (segp r c d k), snd (segp r c d k)) by (destruct (segp r c d k); auto).
        apply mad_cell, IN; auto.
      + apply Ce' in Hc0. destruct Hc0 as (k & Hk & ->).
        replace (segp r' c' d' k) with (fst (segp r' c' d' k), snd (segp r' c' d' k)) by (destruct (segp r' c' d' k); auto).
        apply mad_cell, IN; auto.
  Qed.

  (* exchange of two elements *)
  Lemma swap_elts : forall L A i1 j1 i2 j2 m (Q : unit -> (Z -> T) -> Prop), wf A -> allocated L A ->
    pos A i1 j1 -> pos A i2 j2 ->
    (forall m', moved A (fun i j => if (i =? i2) && (j =? j2) then (i1, j1)
        else if (i =? i1) && (j =? j1) then (i2, j2) else (i, j)) m m' -> Q tt m') ->
    wp (p1 <- armas_get_unsafe A i1 j1 ;; p3 <- armas_get_unsafe A i2 j2 ;;
        armas_set_unsafe A i1 j1 p3 ;; armas_set_unsafe A i2 j2 p1) L m Q.
  Proof.
    intros L A i1 j1 i2 j2 m Q WA LA P1 P2 HQ. unfold armas_get_unsafe, armas_set_unsafe.
    assert (A1 : forall i j, elems A + (j * step A + i) = mad A (i, j)) by (intros; unfold mad; cbn; lia).
    rewrite !A1.
    wbind. apply wp_rd; [apply LA, mad_cell; auto|]. wbind. apply wp_rd; [apply LA, mad_cell; auto|].
    wbind. apply wp_wr; [apply LA, mad_cell; auto|]. apply wp_wr; [apply LA, mad_cell; auto|].
    apply HQ. split.
    - intros i j Hp. rewrite !elt_mad.
      assert (EQ : forall i' j', pos A i' j' -> (mad A (i, j) =? mad A (i', j')) = (i =? i') && (j =? j')).
      { intros i' j' Hp'. destruct (mad A (i, j) =? mad A (i', j')) eqn:E.
        - apply Z.eqb_eq in E. apply (mad_inj A WA) in E; auto. injection E; intros; lia.
        - destruct ((i =? i') && (j =? j')) eqn:E'; auto.
          assert (i = i' /\ j = j') as (-> & ->) by lia. rewrite Z.eqb_refl in E. discriminate. }
      rewrite !EQ by auto.
      destruct ((i =? i2) && (j =? j2)) eqn:E2; [reflexivity|].
      destruct ((i =? i1) && (j =? j1)) eqn:E1; reflexivity.
    - intros a Ha.
      destruct (a =? mad A (i2, j2)) eqn:E2; [exfalso; apply Ha; apply Z.eqb_eq in E2; subst; apply mad_cell; auto|].
      destruct (a =? mad A (i1, j1)) eqn:E1; [exfalso; apply Ha; apply Z.eqb_eq in E1; subst; apply mad_cell; auto|].
      reflexivity.
  Qed.

  (* ---------------------------------------------------------------- *)
  (* rows and columns *)

  Definition row_map (tau : Z -> Z) (i j : Z) : Z * Z := (tau i, j).
  Definition col_map (tau : Z -> Z) (i j : Z) : Z * Z := (i, tau j).

  Lemma submatrix_seg : forall A r c (d : bool) n, wf A -> 0 < rows A -> 0 < cols A -> 0 <= r -> 0 <= c -> 0 <= n ->
    armas_submatrix A r c (if d then n else 1) (if d then 1 else n) = seg A r c d n.
  Proof.
    intros A r c d n WA H1 H2 Hr Hc Hn. rewrite submatrix_eq by auto. cbv zeta. unfold norm_ix, seg.
    replace (r <? 0) with false by lia. replace (c <? 0) with false by lia.
    replace ((if d then n else 1) <? 0) with false by (destruct d; lia).
    replace ((if d then 1 else n) <? 0) with false by (destruct d; lia). reflexivity.
  Qed.

  Lemma swap_rows_wp : forall L A src dst m (Q : unit -> (Z -> T) -> Prop), wf A -> allocated L A ->
    0 <= src -> 0 <= dst < rows A ->
    (forall m', moved A (row_map (if src <? rows A then transp src dst else fun i => i)) m m' -> Q tt m') ->
    wp (swap_rows A src dst) L m Q.
  Proof.
    intros L A src dst m Q WA LA Hs Hd HQ. unfold swap_rows. apply wp_if; intros E1; [|apply wp_if; intros E2].
    - apply wp_ret. apply HQ. eapply moved_ext; [|apply moved_id]. intros i j Hp. unfold row_map, transp, pos in *.
      f_equal. destruct (src <? rows A); auto. destruct (i =? src) eqn:Ea; auto; [|destruct (i =? dst) eqn:Eb; auto]; lia.
    - apply wp_ret. apply HQ. eapply moved_ext; [|apply moved_id]. intros i j Hp. unfold row_map.
      replace (src <? rows A) with false by lia. reflexivity.
    - wbind.
      rewrite (submatrix_seg A src 0 false (cols A)), (submatrix_seg A dst 0 false (cols A)) by (auto; lia).
      apply swap_segs; auto; try lia.
      { unfold inseg. intros i j. lia. }
      intros m' Hm. apply wp_ret. apply HQ. eapply moved_ext; [|exact Hm].
      intros i j Hp. cbv beta. unfold inseg, segp, segk, row_map, transp, pos in *.
      replace (src <? rows A) with true by lia.
      destruct (i =? src) eqn:Ea; cbn [andb].
      + replace ((0 <=? j) && (j <? 0 + cols A)) with true by lia. f_equal. lia.
      + destruct (i =? dst) eqn:Eb; cbn [andb]; [|reflexivity].
        replace ((0 <=? j) && (j <? 0 + cols A)) with true by lia. f_equal. lia.
  Qed.

  Lemma swap_cols_wp : forall L A src dst m (Q : unit -> (Z -> T) -> Prop), wf A -> allocated L A ->
    0 <= src -> 0 <= dst < cols A ->
    (forall m', moved A (col_map (if src <? cols A then transp src dst else fun i => i)) m m' -> Q tt m') ->
    wp (swap_cols A src dst) L m Q.
  Proof.
    intros L A src dst m Q WA LA Hs Hd HQ. unfold swap_cols. apply wp_if; intros E1; [|apply wp_if; intros E2].
    - apply wp_ret. apply HQ. eapply moved_ext; [|apply moved_id]. intros i j Hp. unfold col_map, transp, pos in *.
      f_equal. destruct (src <? cols A); auto. destruct (j =? src) eqn:Ea; auto; [|destruct (j =? dst) eqn:Eb; auto]; lia.
    - apply wp_ret. apply HQ. eapply moved_ext; [|apply moved_id]. intros i j Hp. unfold col_map.
      replace (src <? cols A) with false by lia. reflexivity.
    - wbind.
      rewrite (submatrix_seg A 0 src true (rows A)), (submatrix_seg A 0 dst true (rows A)) by (auto; lia).
      apply swap_segs; auto; try lia.
      { unfold inseg. intros i j. lia. }
      intros m' Hm. apply wp_ret. apply HQ. eapply moved_ext; [|exact Hm].
      intros i j Hp. cbv beta. unfold inseg, segp, segk, col_map, transp, pos in *.
      replace (src <? cols A) with true by lia.
      destruct (j =? src) eqn:Ea; cbn [andb].
      + replace ((0 <=? i) && (i <? 0 + rows A)) with true by lia. f_equal. lia.
      + destruct (j =? dst) eqn:Eb; cbn [andb]; [|reflexivity].
        replace ((0 <=? i) && (i <? 0 + rows A)) with true by lia. f_equal. lia.
  Qed.

  Lemma ichg_range : forall size n k i, 0 <= k < size -> 0 <= i < size -> 0 <= ichg size n k i < size.
  Proof. intros. unfold ichg, transp. destruct ((0 <? n) && (n <=? size)) eqn:E; [|auto].
    destruct (i =? n - 1) eqn:E1; [lia|]. destruct (i =? k) eqn:E2; lia. Qed.

  Lemma apply_row_pivots_wp : forall L A P dir m (Q : unit -> (Z -> T) -> Prop), wf A -> allocated L A ->
    0 <= npivots P <= rows A ->
    (forall m', moved A (row_map (if dir =? ARMAS_PIVOT_FORWARD then fwd (rows A) (indexes P) (Z.to_nat (npivots P))
        else bwd (rows A) (npivots P) (indexes P) (Z.to_nat (npivots P)))) m m' -> Q tt m') ->
    wp (apply_row_pivots A P dir) L m Q.
  Proof.
    intros L A P dir m Q WA LA HP HQ. unfold apply_row_pivots. apply wp_if; intros E0.
    { apply wp_ret, HQ. split; [|intros a _; reflexivity]. intros i j Hp. exfalso. unfold pos in Hp. lia. }
    apply wp_if; intros E1.
    - rewrite E1 in HQ.
      apply wp_for1 with (I := fun k m' => moved A (row_map (fwd (rows A) (indexes P) (Z.to_nat k))) m m').
      + eapply moved_ext; [|apply moved_id]. reflexivity.
      + intros k m1 Hk Hm. cbv zeta.
        assert (X : forall m2, moved A (row_map (ichg (rows A) (indexes P k) k)) m1 m2 ->
           moved A (row_map (fwd (rows A) (indexes P) (Z.to_nat (k + 1)))) m m2).
        { intros m2 H2. eapply moved_ext; [|eapply moved_trans; [|exact Hm|exact H2]].
          - intros i j Hp. unfold row_map. cbn [fst snd]. f_equal.
            replace (Z.to_nat (k + 1)) with (S (Z.to_nat k)) by lia. cbn [fwd].
            rewrite Z2Nat.id by lia. reflexivity.
          - intros i j Hp. unfold row_map; cbn [fst snd]. unfold pos in *. 
            pose proof (ichg_range (rows A) (indexes P k) k i). lia. }
        apply wp_when; intros E.
        * apply swap_rows_wp; auto; try lia. intros m2 H2. apply X.
          eapply moved_ext; [|exact H2]. intros i j Hp. unfold row_map, ichg. f_equal.
          replace (0 <? indexes P k) with true by lia. cbn [andb].
          replace (indexes P k - 1 <? rows A) with (indexes P k <=? rows A) by lia. reflexivity.
        * apply X. eapply moved_ext; [|apply moved_id]. intros i j Hp. unfold row_map, ichg. f_equal.
          destruct ((0 <? indexes P k) && (indexes P k <=? rows A)) eqn:E2; auto.
          unfold transp. replace (indexes P k - 1) with k by lia.
          destruct (i =? k) eqn:E3; auto. lia.
      + intros m' Hm. apply HQ. replace (Z.max 0 (npivots P)) with (npivots P) in Hm by lia. exact Hm.
    - rewrite E1 in HQ.
      apply wp_for_down with (I := fun k m' =>
        moved A (row_map (bwd (rows A) (npivots P) (indexes P) (Z.to_nat (npivots P - 1 - k)))) m m').
      + eapply moved_ext; [|apply moved_id]. intros i j Hp.
        replace (Z.to_nat (npivots P - 1 - (npivots P - 1))) with 0%nat by lia. reflexivity.
      + intros k m1 Hk Hm. cbv zeta.
        set (nk := rows A - 1 - (npivots P - 1 - k)).
        assert (X : forall m2, moved A (row_map (ichg (rows A) (indexes P k) nk)) m1 m2 ->
           moved A (row_map (bwd (rows A) (npivots P) (indexes P) (Z.to_nat (npivots P - 1 - (k - 1))))) m m2).
        { intros m2 H2. eapply moved_ext; [|eapply moved_trans; [|exact Hm|exact H2]].
          - intros i j Hp. unfold row_map. cbn [fst snd]. f_equal.
            replace (Z.to_nat (npivots P - 1 - (k - 1))) with (S (Z.to_nat (npivots P - 1 - k))) by lia. cbn [bwd].
            rewrite Z2Nat.id by lia. replace (npivots P - 1 - (npivots P - 1 - k)) with k by lia.
            replace (k + (rows A - npivots P)) with nk by (unfold nk; lia). reflexivity.
          - intros i j Hp. unfold row_map; cbn [fst snd]. unfold pos in *.
            pose proof (ichg_range (rows A) (indexes P k) nk i). unfold nk in *. lia. }
        assert (Hnk : 0 <= nk < rows A) by (unfold nk; lia).
        apply wp_when; intros E.
        * apply swap_rows_wp; auto; try lia. intros m2 H2. apply X.
          eapply moved_ext; [|exact H2]. intros i j Hp. unfold row_map, ichg. f_equal.
          replace (0 <? indexes P k) with true by lia. cbn [andb].
          replace (indexes P k - 1 <? rows A) with (indexes P k <=? rows A) by lia. reflexivity.
        * apply X. eapply moved_ext; [|apply moved_id]. intros i j Hp. unfold row_map, ichg. f_equal.
          destruct ((0 <? indexes P k) && (indexes P k <=? rows A)) eqn:E2; auto.
          unfold transp. replace (indexes P k - 1) with nk by lia.
          destruct (i =? nk) eqn:E3; auto. lia.
      + intros m' Hm. apply HQ. replace (Z.min (npivots P - 1) (0 - 1)) with (-1) in Hm by lia.
        replace (npivots P - 1 - -1) with (npivots P) in Hm by lia. exact Hm.
  Qed.

  Lemma apply_col_pivots_wp : forall L A P dir m (Q : unit -> (Z -> T) -> Prop), wf A -> allocated L A ->
    0 <= npivots P <= cols A ->
    (forall m', moved A (col_map (if dir =? ARMAS_PIVOT_FORWARD then fwd (cols A) (indexes P) (Z.to_nat (npivots P))
        else bwd (cols A) (npivots P) (indexes P) (Z.to_nat (npivots P)))) m m' -> Q tt m') ->
    wp (apply_col_pivots A P dir) L m Q.
  Proof.
    intros L A P dir m Q WA LA HP HQ. unfold apply_col_pivots. apply wp_if; intros E0.
    { apply wp_ret, HQ. split; [|intros a _; reflexivity]. intros i j Hp. exfalso. unfold pos in Hp. lia. }
    apply wp_if; intros E1.
    - rewrite E1 in HQ.
      apply wp_for1 with (I := fun k m' => moved A (col_map (fwd (cols A) (indexes P) (Z.to_nat k))) m m').
      + eapply moved_ext; [|apply moved_id]. reflexivity.
      + intros k m1 Hk Hm. cbv zeta.
        assert (X : forall m2, moved A (col_map (ichg (cols A) (indexes P k) k)) m1 m2 ->
           moved A (col_map (fwd (cols A) (indexes P) (Z.to_nat (k + 1)))) m m2).
        { intros m2 H2. eapply moved_ext; [|eapply moved_trans; [|exact Hm|exact H2]].
          - intros i j Hp. unfold col_map. cbn [fst snd]. f_equal.
            replace (Z.to_nat (k + 1)) with (S (Z.to_nat k)) by lia. cbn [fwd].
            rewrite Z2Nat.id by lia. reflexivity.
          - intros i j Hp. unfold col_map; cbn [fst snd]. unfold pos in *.
            pose proof (ichg_range (cols A) (indexes P k) k j). lia. }
        apply wp_when; intros E.
        * apply swap_cols_wp; auto; try lia. intros m2 H2. apply X.
          eapply moved_ext; [|exact H2]. intros i j Hp. unfold col_map, ichg. f_equal.
          replace (0 <? indexes P k) with true by lia. cbn [andb].
          replace (indexes P k - 1 <? cols A) with (indexes P k <=? cols A) by lia. reflexivity.
        * apply X. eapply moved_ext; [|apply moved_id]. intros i j Hp. unfold col_map, ichg. f_equal.
          destruct ((0 <? indexes P k) && (indexes P k <=? cols A)) eqn:E2; auto.
          unfold transp. replace (indexes P k - 1) with k by lia.
          destruct (j =? k) eqn:E3; auto. lia.
      + intros m' Hm. apply HQ. replace (Z.max 0 (npivots P)) with (npivots P) in Hm by lia. exact Hm.
    - rewrite E1 in HQ.
      apply wp_for_down with (I := fun k m' =>
        moved A (col_map (bwd (cols A) (npivots P) (indexes P) (Z.to_nat (npivots P - 1 - k)))) m m').
      + eapply moved_ext; [|apply moved_id]. intros i j Hp.
        replace (Z.to_nat (npivots P - 1 - (npivots P - 1))) with 0%nat by lia. reflexivity.
      + intros k m1 Hk Hm. cbv zeta.
        set (nk := cols A - 1 - (npivots P - 1 - k)).
        assert (X : forall m2, moved A (col_map (ichg (cols A) (indexes P k) nk)) m1 m2 ->
           moved A (col_map (bwd (cols A) (npivots P) (indexes P) (Z.to_nat (npivots P - 1 - (k - 1))))) m m2).
        { intros m2 H2. eapply moved_ext; [|eapply moved_trans; [|exact Hm|exact H2]].
          - intros i j Hp. unfold col_map. cbn [fst snd]. f_equal.
            replace (Z.to_nat (npivots P - 1 - (k - 1))) with (S (Z.to_nat (npivots P - 1 - k))) by lia. cbn [bwd].
            rewrite Z2Nat.id by lia. replace (npivots P - 1 - (npivots P - 1 - k)) with k by lia.
            replace (k + (cols A - npivots P)) with nk by (unfold nk; lia). reflexivity.
          - intros i j Hp. unfold col_map; cbn [fst snd]. unfold pos in *.
            pose proof (ichg_range (cols A) (indexes P k) nk j). unfold nk in *. lia. }
        assert (Hnk : 0 <= nk < cols A) by (unfold nk; lia).
        apply wp_when; intros E.
        * apply swap_cols_wp; auto; try lia. intros m2 H2. apply X.
          eapply moved_ext; [|exact H2]. intros i j Hp. unfold col_map, ichg. f_equal.
          replace (0 <? indexes P k) with true by lia. cbn [andb].
          replace (indexes P k - 1 <? cols A) with (indexes P k <=? cols A) by lia. reflexivity.
        * apply X. eapply moved_ext; [|apply moved_id]. intros i j Hp. unfold col_map, ichg. f_equal.
          destruct ((0 <? indexes P k) && (indexes P k <=? cols A)) eqn:E2; auto.
          unfold transp. replace (indexes P k - 1) with nk by lia.
          destruct (j =? nk) eqn:E3; auto. lia.
      + intros m' Hm. apply HQ. replace (Z.min (npivots P - 1) (0 - 1)) with (-1) in Hm by lia.
        replace (npivots P - 1 - -1) with (npivots P) in Hm by lia. exact Hm.
  Qed.

  (* backward undoes forward when there are as many pivots as rows *)
  Lemma ichg_invol : forall size n k i, ichg size n k (ichg size n k i) = i.
  Proof.
    intros. unfold ichg. destruct ((0 <? n) && (n <=? size)); auto. unfold transp.
    destruct (i =? n - 1) eqn:E1.
    - destruct (k =? n - 1) eqn:E2; [lia|]. rewrite Z.eqb_refl. lia.
    - destruct (i =? k) eqn:E2; [|rewrite E1, E2; auto]. rewrite Z.eqb_refl. lia.
  Qed.

  Lemma fwd_bwd : forall size p n i, Z.of_nat n <= size ->
    fwd size p (Z.to_nat size) (bwd size size p n i) = fwd size p (Z.to_nat (size - Z.of_nat n)) i.
  Proof.
    intros size p n. induction n as [|n IH]; intros i Hn; cbn [bwd].
    - replace (size - Z.of_nat 0) with size by lia. reflexivity.
    - rewrite IH by lia.
      replace (Z.to_nat (size - Z.of_nat n)) with (S (Z.to_nat (size - Z.of_nat (S n)))) by lia. cbn [fwd].
      rewrite !Z2Nat.id by lia.
      replace (size - 1 - Z.of_nat n + (size - size)) with (size - 1 - Z.of_nat n) by lia.
      replace (size - Z.of_nat (S n)) with (size - 1 - Z.of_nat n) by lia.
      rewrite ichg_invol. reflexivity.
  Qed.

  Lemma fwd_bwd_id : forall size p i, 0 <= size -> fwd size p (Z.to_nat size) (bwd size size p (Z.to_nat size) i) = i.
  Proof.
    intros size p i H. rewrite fwd_bwd by lia.
    replace (size - Z.of_nat (Z.to_nat size)) with 0 by lia. reflexivity.
  Qed.
  (* ---------------------------------------------------------------- *)
  (* symmetric pivoting *)

  (* position in the lower (upper) triangle that holds element (i,j) of the symmetric matrix *)
  Definition lowpos (i j : Z) : Z * Z := (Z.max i j, Z.min i j).
  Definition uppos (i j : Z) : Z * Z := (Z.min i j, Z.max i j).
  Definition low_map (tau : Z -> Z) (i j : Z) : Z * Z := if j <=? i then lowpos (tau i) (tau j) else (i, j).
  Definition up_map (tau : Z -> Z) (i j : Z) : Z * Z := if i <=? j then uppos (tau i) (tau j) else (i, j).

  Ltac split_ifs :=
    repeat match goal with
    | |- context [if ?b then _ else _] =>
        let E := fresh "E" in destruct b eqn:E; cbn [fst snd] in *; try (exfalso; lia)
    end.

  Lemma transp_sym : forall a b i, transp a b i = transp b a i.
  Proof. intros. unfold transp. destruct (i =? a) eqn:E1, (i =? b) eqn:E2; lia. Qed.

  Lemma low_map_ext : forall t t' i j, (forall x, t x = t' x) -> low_map t i j = low_map t' i j.
  Proof. intros t t' i j H. unfold low_map, lowpos. rewrite !H. reflexivity. Qed.
  Lemma up_map_ext : forall t t' i j, (forall x, t x = t' x) -> up_map t i j = up_map t' i j.
  Proof. intros t t' i j H. unfold up_map, uppos. rewrite !H. reflexivity. Qed.

  Lemma pivot_lower_core : forall L A s d m (Q : unit -> (Z -> T) -> Prop), wf A -> allocated L A ->
    rows A = cols A -> 0 <= s -> s < d -> d < rows A ->
    (forall m', moved A (low_map (transp s d)) m m' -> Q tt m') ->
    wp (when (s >? 0)
        (armas_swap (armas_submatrix_unsafe A s 0 1 s)
                    (armas_submatrix_unsafe A d 0 1 s) ;; ret tt) ;;
      armas_swap (armas_submatrix_unsafe A (s + 1) s (d - s - 1) 1)
                 (armas_submatrix_unsafe A d (s + 1) 1 (d - s - 1)) ;;
      armas_swap (armas_submatrix_unsafe A (d + 1) s (rows A - d - 1) 1)
                 (armas_submatrix_unsafe A (d + 1) d (rows A - d - 1) 1) ;;
      p1 <- armas_get_unsafe A s s ;;
      p3 <- armas_get_unsafe A d d ;;
      armas_set_unsafe A s s p3 ;;
      armas_set_unsafe A d d p1) L m Q.
  Proof.
    intros L A s d m Q WA LA Sq Hs Hd Hr HQ.
    wbind.
    assert (X : forall m1, moved A (fun i j => if inseg s 0 false s i j then segp d 0 false (segk s 0 false i j)
       else if inseg d 0 false s i j then segp s 0 false (segk d 0 false i j) else (i, j)) m m1 ->
       wp (armas_swap (armas_submatrix_unsafe A (s + 1) s (d - s - 1) 1)
                 (armas_submatrix_unsafe A d (s + 1) 1 (d - s - 1)) ;;
      armas_swap (armas_submatrix_unsafe A (d + 1) s (rows A - d - 1) 1)
                 (armas_submatrix_unsafe A (d + 1) d (rows A - d - 1) 1) ;;
      p1 <- armas_get_unsafe A s s ;;
      p3 <- armas_get_unsafe A d d ;;
      armas_set_unsafe A s s p3 ;;
      armas_set_unsafe A d d p1) L m1 Q).
    { intros m1 (E1 & O1). wbind.
      apply (swap_segs L A (s + 1) s true (d - s - 1) d (s + 1) false); auto; try lia.
      { unfold inseg. intros i j. lia. }
      intros m2 (E2 & O2). wbind.
      apply (swap_segs L A (d + 1) s true (rows A - d - 1) (d + 1) d true); auto; try lia.
      { unfold inseg. intros i j. lia. }
      intros m3 (E3 & O3).
      apply swap_elts; auto; try (unfold pos; lia).
      intros m4 (E4 & O4). apply HQ. split; [|eauto using only_trans].
      intros i j Hp. rewrite E4 by auto. unfold pos in Hp.
      unfold low_map, lowpos, transp, inseg, segp, segk in *.
      split_ifs;
      repeat (first [rewrite E3 by (unfold pos; lia) | rewrite E2 by (unfold pos; lia) | rewrite E1 by (unfold pos; lia)];
              split_ifs);
      f_equal; lia. }
    apply wp_when; intros E.
    - wbind. apply (swap_segs L A s 0 false s d 0 false); auto; try lia.
      { unfold inseg. intros i j. lia. }
      intros m1 H1. apply wp_ret. apply X; auto.
    - apply X. eapply moved_ext; [|apply moved_id]. intros i j Hp. unfold inseg.
      split_ifs. reflexivity.
  Qed.

  Lemma apply_pivot_lower_wp : forall L A s d m (Q : unit -> (Z -> T) -> Prop), wf A -> allocated L A ->
    rows A = cols A -> 0 <= s < rows A -> 0 <= d < rows A ->
    (forall m', moved A (low_map (transp s d)) m m' -> Q tt m') ->
    wp (apply_pivot_lower A s d) L m Q.
  Proof.
    intros L A s d m Q WA LA Sq Hs Hd HQ. unfold apply_pivot_lower. apply wp_if; intros E.
    - apply wp_ret, HQ. eapply moved_ext; [|apply moved_id].
      intros i j Hp. unfold low_map, lowpos, transp. split_ifs; f_equal; lia.
    - destruct (s >? d) eqn:E1.
      + apply pivot_lower_core; auto; try lia. intros m' H. apply HQ. eapply moved_ext; [|exact H].
        intros i j _. apply low_map_ext. intros; apply transp_sym.
      + apply pivot_lower_core; auto; lia.
  Qed.

  Lemma pivot_upper_core : forall L A s d m (Q : unit -> (Z -> T) -> Prop), wf A -> allocated L A ->
    rows A = cols A -> 0 <= d -> d < s -> s < rows A ->
    (forall m', moved A (up_map (transp s d)) m m' -> Q tt m') ->
    wp (armas_swap (armas_submatrix_unsafe A s (s + 1) 1 (cols A - s - 1))
                 (armas_submatrix_unsafe A d (s + 1) 1 (cols A - s - 1)) ;;
      armas_swap (armas_submatrix_unsafe A (d + 1) s (s - d - 1) 1)
                 (armas_submatrix_unsafe A d (d + 1) 1 (s - d - 1)) ;;
      armas_swap (armas_submatrix_unsafe A 0 s d 1)
                 (armas_submatrix_unsafe A 0 d d 1) ;;
      p1 <- armas_get_unsafe A s s ;;
      p3 <- armas_get_unsafe A d d ;;
      armas_set_unsafe A s s p3 ;;
      armas_set_unsafe A d d p1) L m Q.
  Proof.
    intros L A s d m Q WA LA Sq Hs Hd Hr HQ. wbind.
    apply (swap_segs L A s (s + 1) false (cols A - s - 1) d (s + 1) false); auto; try lia.
    { unfold inseg. intros i j. lia. }
    intros m1 (E1 & O1). wbind.
    apply (swap_segs L A (d + 1) s true (s - d - 1) d (d + 1) false); auto; try lia.
    { unfold inseg. intros i j. lia. }
    intros m2 (E2 & O2). wbind.
    apply (swap_segs L A 0 s true d 0 d true); auto; try lia.
    { unfold inseg. intros i j. lia. }
    intros m3 (E3 & O3).
    apply swap_elts; auto; try (unfold pos; lia).
    intros m4 (E4 & O4). apply HQ. split; [|eauto using only_trans].
    intros i j Hp. rewrite E4 by auto. unfold pos in Hp.
    unfold up_map, uppos, transp, inseg, segp, segk in *.
    split_ifs;
    repeat (first [rewrite E3 by (unfold pos; lia) | rewrite E2 by (unfold pos; lia) | rewrite E1 by (unfold pos; lia)];
            split_ifs);
    f_equal; lia.
  Qed.

  Lemma apply_pivot_upper_wp : forall L A s d m (Q : unit -> (Z -> T) -> Prop), wf A -> allocated L A ->
    rows A = cols A -> 0 <= s < rows A -> 0 <= d < rows A ->
    (forall m', moved A (up_map (transp s d)) m m' -> Q tt m') ->
    wp (apply_pivot_upper A s d) L m Q.
  Proof.
    intros L A s d m Q WA LA Sq Hs Hd HQ. unfold apply_pivot_upper. apply wp_if; intros E.
    - apply wp_ret, HQ. eapply moved_ext; [|apply moved_id].
      intros i j Hp. unfold up_map, uppos, transp. split_ifs; f_equal; lia.
    - destruct (s <? d) eqn:E1.
      + apply pivot_upper_core; auto; try lia. intros m' H. apply HQ. eapply moved_ext; [|exact H].
        intros i j _. apply up_map_ext. intros; apply transp_sym.
      + apply pivot_upper_core; auto; lia.
  Qed.

  (* both triangles at once: smap is low_map or up_map *)
  Definition symm_map (low : bool) (tau : Z -> Z) : Z -> Z -> Z * Z := if low then low_map tau else up_map tau.
  Definition inj (f : Z -> Z) := forall x y, f x = f y -> x = y.

  Lemma symm_map_comp : forall low t u i j, 
    symm_map low t (fst (symm_map low u i j)) (snd (symm_map low u i j)) = symm_map low (fun x => t (u x)) i j.
  Proof.
    intros low t u i j. unfold symm_map. destruct low; unfold low_map, lowpos, up_map, uppos.
    - destruct (j <=? i) eqn:E; cbn [fst snd]; [|rewrite E; reflexivity].
      replace (Z.min (u i) (u j) <=? Z.max (u i) (u j)) with true by lia.
      destruct (Z.max_spec (u i) (u j)) as [(H & ->)|(H & ->)];
      destruct (Z.min_spec (u i) (u j)) as [(H' & ->)|(H' & ->)]; try lia; f_equal; try lia.
    - destruct (i <=? j) eqn:E; cbn [fst snd]; [|rewrite E; reflexivity].
      replace (Z.min (u i) (u j) <=? Z.max (u i) (u j)) with true by lia.
      destruct (Z.max_spec (u i) (u j)) as [(H & ->)|(H & ->)];
      destruct (Z.min_spec (u i) (u j)) as [(H' & ->)|(H' & ->)]; try lia; f_equal; try lia.
  Qed.

  Lemma symm_map_ext : forall low t t' i j, (forall x, t x = t' x) -> symm_map low t i j = symm_map low t' i j.
  Proof. intros [] t t' i j H; [apply low_map_ext|apply up_map_ext]; auto. Qed.

  Lemma symm_map_pos : forall low n t i j, (forall x, 0 <= x < n -> 0 <= t x < n) ->
    0 <= i < n -> 0 <= j < n -> 
    0 <= fst (symm_map low t i j) < n /\ 0 <= snd (symm_map low t i j) < n.
  Proof.
    intros low n t i j H Hi Hj. pose proof (H i Hi). pose proof (H j Hj).
    destruct low; unfold symm_map, low_map, up_map, lowpos, uppos; split_ifs; lia.
  Qed.

  Definition symm_apply (low : bool) : view -> Z -> Z -> M T unit := if low then apply_pivot_lower else apply_pivot_upper.

  Lemma symm_apply_wp : forall (low : bool) L A s d m (Q : unit -> (Z -> T) -> Prop), wf A -> allocated L A ->
    rows A = cols A -> 0 <= s < rows A -> 0 <= d < rows A ->
    (forall m', moved A (symm_map low (transp s d)) m m' -> Q tt m') ->
    wp (symm_apply low A s d) L m Q.
  Proof. intros [] *; [apply apply_pivot_lower_wp|apply apply_pivot_upper_wp]. Qed.

  Lemma symm_fwd_wp : forall (low : bool) L A P m (Q : unit -> (Z -> T) -> Prop), wf A -> allocated L A ->
    rows A = cols A -> 0 <= npivots P <= rows A ->
    (forall k, 0 <= k < npivots P -> 1 <= indexes P k <= rows A) ->
    (forall m', moved A (symm_map low (fwd (rows A) (indexes P) (Z.to_nat (npivots P)))) m m' -> Q tt m') ->
    wp (for_up 0 (npivots P) 1 (fun k =>
          let kp := armas_pivot_get P k in
          when (negb (kp - 1 =? k)) (symm_apply low A k (kp - 1)))) L m Q.
  Proof.
    intros low L A P m Q WA LA Sq HP HI HQ.
    apply wp_for1 with (I := fun k m' => moved A (symm_map low (fwd (rows A) (indexes P) (Z.to_nat k))) m m').
    - eapply moved_ext; [|apply moved_id]. intros i j Hp. destruct low; unfold symm_map, low_map, up_map, lowpos, uppos;
        cbn [Z.to_nat fwd]; split_ifs; f_equal; lia.
    - intros k m1 Hk Hm. cbv zeta. unfold armas_pivot_get. replace ((0 <=? k) && (k <? npivots P)) with true by lia.
      pose proof (HI k Hk) as HIk.
      assert (X : forall m2, moved A (symm_map low (ichg (rows A) (indexes P k) k)) m1 m2 ->
           moved A (symm_map low (fwd (rows A) (indexes P) (Z.to_nat (k + 1)))) m m2).
      { intros m2 H2. eapply moved_ext; [|eapply moved_trans; [|exact Hm|exact H2]].
        - intros i j Hp. cbv beta. rewrite symm_map_comp. apply symm_map_ext. intros x.
          replace (Z.to_nat (k + 1)) with (S (Z.to_nat k)) by lia. cbn [fwd].
          rewrite Z2Nat.id by lia. reflexivity.
        - intros i j Hp. unfold pos in *. rewrite <- Sq in *. apply symm_map_pos; try lia.
          intros x Hx. apply ichg_range; lia. }
      assert (EI : forall x, ichg (rows A) (indexes P k) k x = transp k (indexes P k - 1) x).
      { intros x. unfold ichg. replace ((0 <? indexes P k) && (indexes P k <=? rows A)) with true by lia. apply transp_sym. }
      apply wp_when; intros E.
      + apply symm_apply_wp; auto; try lia. intros m2 H2. apply X. eapply moved_ext; [|exact H2].
        intros i j Hp. apply symm_map_ext. intros x. symmetry. apply EI.
      + apply X. eapply moved_ext; [|apply moved_id]. intros i j Hp.
        destruct low; unfold symm_map, low_map, up_map, lowpos, uppos; rewrite !EI; unfold transp;
        split_ifs; f_equal; lia.
    - intros m' Hm. apply HQ. replace (Z.max 0 (npivots P)) with (npivots P) in Hm by lia. exact Hm.
  Qed.

  Lemma symm_bwd_wp : forall (low : bool) L A P m (Q : unit -> (Z -> T) -> Prop), wf A -> allocated L A ->
    rows A = cols A -> 0 <= npivots P <= rows A ->
    (forall k, 0 <= k < npivots P -> 1 <= indexes P k <= rows A) ->
    (forall m', moved A (symm_map low (bwd (rows A) (npivots P) (indexes P) (Z.to_nat (npivots P)))) m m' -> Q tt m') ->
    wp (for_down (npivots P - 1) 0 (fun k =>
          let nk := rows A - 1 - (npivots P - 1 - k) in
          let kp := armas_pivot_get P k in
          when (negb (kp - 1 =? nk)) (symm_apply low A (kp - 1) nk))) L m Q.
  Proof.
    intros low L A P m Q WA LA Sq HP HI HQ.
    apply wp_for_down with (I := fun k m' =>
        moved A (symm_map low (bwd (rows A) (npivots P) (indexes P) (Z.to_nat (npivots P - 1 - k)))) m m').
    - eapply moved_ext; [|apply moved_id]. intros i j Hp.
      replace (Z.to_nat (npivots P - 1 - (npivots P - 1))) with 0%nat by lia.
      destruct low; unfold symm_map, low_map, up_map, lowpos, uppos; cbn [bwd]; split_ifs; f_equal; lia.
    - intros k m1 Hk Hm. cbv zeta. unfold armas_pivot_get. replace ((0 <=? k) && (k <? npivots P)) with true by lia.
      assert (Hk' : 0 <= k < npivots P) by lia. pose proof (HI k Hk') as HIk.
      set (nk := rows A - 1 - (npivots P - 1 - k)).
      assert (Hnk : 0 <= nk < rows A) by (unfold nk; lia).
      assert (X : forall m2, moved A (symm_map low (ichg (rows A) (indexes P k) nk)) m1 m2 ->
           moved A (symm_map low (bwd (rows A) (npivots P) (indexes P) (Z.to_nat (npivots P - 1 - (k - 1))))) m m2).
      { intros m2 H2. eapply moved_ext; [|eapply moved_trans; [|exact Hm|exact H2]].
        - intros i j Hp. cbv beta. rewrite symm_map_comp. apply symm_map_ext. intros x.
          replace (Z.to_nat (npivots P - 1 - (k - 1))) with (S (Z.to_nat (npivots P - 1 - k))) by lia. cbn [bwd].
          rewrite Z2Nat.id by lia. replace (npivots P - 1 - (npivots P - 1 - k)) with k by lia.
          replace (k + (rows A - npivots P)) with nk by (unfold nk; lia). reflexivity.
        - intros i j Hp. unfold pos in *. rewrite <- Sq in *. apply symm_map_pos; try lia.
          intros x Hx. apply ichg_range; lia. }
      assert (EI : forall x, ichg (rows A) (indexes P k) nk x = transp (indexes P k - 1) nk x).
      { intros x. unfold ichg. replace ((0 <? indexes P k) && (indexes P k <=? rows A)) with true by lia. reflexivity. }
      apply wp_when; intros E.
      + apply symm_apply_wp; auto; try lia. intros m2 H2. apply X. eapply moved_ext; [|exact H2].
        intros i j Hp. apply symm_map_ext. intros x. symmetry. apply EI.
      + apply X. eapply moved_ext; [|apply moved_id]. intros i j Hp.
        destruct low; unfold symm_map, low_map, up_map, lowpos, uppos; rewrite !EI; unfold transp;
        split_ifs; f_equal; lia.
    - intros m' Hm. apply HQ. replace (Z.min (npivots P - 1) (0 - 1)) with (-1) in Hm by lia.
      replace (npivots P - 1 - -1) with (npivots P) in Hm by lia. exact Hm.
  Qed.
End P.
