(* Properties_Par.v: C26 parallel execution of the tile tasks. *)
From Coq Require Import ZArith Lia Ring Bool List Arith ZifyBool Permutation.
From Verif Require Import Mem MView SpecView PView PSub Hoare MFlags MCopy PUpd PCopy Properties_Copy
  MNum SpecNum MBlas1 PSum PBlas1 Inst MElem PElem MBlas2 PMvec MBase PBase Properties_Base MGemm PGemm PMatcpy PMult
  SpecPivot MPivot PPivot MSort PSort PBlas2 PFrame Properties_Gemm MPar PPar PFoot.
Import ListNotations.
Local Open Scope Z_scope.
Local Open Scope prog_scope.
Local Ltac lia := first [Lia.lia | zlia].
Local Notation block := MBase.block.

(* Programs that write only to addresses W i no other program accesses: in every state that any
   interleaving of their accesses reaches, no two of them are about to access one address one of
   them writing, none of them is prevented from continuing, and the number of accesses done is
   bounded.  When all have finished the memory is the one that results from running them one
   after the other. *)
Theorem C26_interleaving : forall T (L : Z -> bool) n (prog : pool (T := T)) (Li : nat -> Z -> bool) (Wi : nat -> Z -> Prop)
    (m0 : Z -> T) (fin : nat -> Z -> T),
  (forall i, (i < n)%nat -> wfoot (Wi i) (prog i)) ->
  (forall i j a, (i < n)%nat -> (j < n)%nat -> i <> j -> Wi i a -> Li j a = false) ->
  (forall i a, (i < n)%nat -> Wi i a -> Li i a = true) ->
  (forall i a, (i < n)%nat -> Li i a = true -> L a = true) ->
  (forall i, (i < n)%nat -> prog i (Li i) m0 = Some (tt, fin i)) ->
  exists m1 bound, run_tasks (map prog (seq 0 n)) L m0 = Some (tt, m1) /\
    forall q s, psteps L n q (m0, prog) s ->
      ~ racing n s /\ ~ stuck L n s /\ (q <= bound)%nat /\ (finished n s -> forall a, fst s a = m1 a).
Proof.
  intros T L n prog Li Wi m0 fin HW HD HWL HL HR.
  (* one after the other *)
  assert (SEQ : forall d k m, (k + d = n)%nat ->
    (forall i a, (k <= i < n)%nat -> Li i a = true -> m a = m0 a) ->
    (forall a, (forall i, (i < k)%nat -> ~ Wi i a) -> m a = m0 a) ->
    (forall i a, (i < k)%nat -> Wi i a -> m a = fin i a) ->
    exists m1, run_tasks (map prog (seq k d)) L m = Some (tt, m1) /\
      (forall a, (forall i, (i < n)%nat -> ~ Wi i a) -> m1 a = m0 a) /\
      (forall i a, (i < n)%nat -> Wi i a -> m1 a = fin i a)).
  { induction d as [|d IH]; intros k m Hk H1 H2 H3; cbn [seq map run_tasks].
    - exists m. replace n with k by lia. split; [reflexivity|]. split; auto.
    - destruct (run_agree _ (prog k) (Li k) m0 m tt (fin k)) as (mk & R & A).
      { intros a Ha. symmetry. apply (H1 k); auto. lia. }
      { apply HR. lia. }
      rewrite run_bind, (run_mono _ (prog k) (Li k) L m _ (fun a => HL k a ltac:(lia)) R).
      assert (O : forall a, ~ Wi k a -> mk a = m a).
      { intros a Ha. exact (wf_only _ _ _ _ _ _ _ a (HW k ltac:(lia)) R Ha). }
      apply IH.
      + lia.
      + intros i a Hi Ha. rewrite O; [apply (H1 i); auto; lia|]. intros Hc. rewrite (HD k i a) in Ha; auto; try lia; discriminate.
      + intros a Ha. rewrite O by (apply Ha; lia). apply H2. intros i Hi. apply Ha. lia.
      + intros i a Hi Ha. destruct (Nat.eq_dec i k) as [->|Hn].
        * rewrite <- A; auto. apply HWL; auto; lia.
        * rewrite O; [apply H3; auto; lia|]. intros Hc. pose proof (HD k i a ltac:(lia) ltac:(lia) ltac:(lia) Hc) as X.
          rewrite (HWL i a) in X; auto; [discriminate|lia]. }
  destruct (SEQ n 0%nat m0) as (m1 & R1 & O1 & F1); auto.
  { intros i a Hi. lia. }
  exists m1, (nsum n (fun i => steps (prog i) (Li i) m0)). split; [exact R1|]. intros q s Hs.
  destruct (Inv_good L n prog Li Wi m0 fin HD HL q s) as (G1 & G2 & G3 & G4).
  { eapply Inv_steps; eauto. }
  repeat (split; [assumption|]). intros Hf a. destruct (G4 Hf) as (V & O).
  assert (D : (exists i, (i < n)%nat /\ Li i a = true) \/ (forall i, (i < n)%nat -> Li i a = false)).
  { clear. induction n as [|k IH]; [right; intros; lia|]. destruct (Li k a) eqn:E.
    - left. exists k. auto.
    - destruct IH as [(i & Hi & Ei)|IH]; [left; exists i; auto|]. right. intros i Hi.
      destruct (Nat.eq_dec i k) as [->|Hn]; auto. apply IH. lia. }
  (* an address in Li i may be in the footprint of no program; both memories are then m0 *)
  destruct D as [(i & Hi & Ei)|D].
  - rewrite (V i a Hi Ei).
    assert (D2 : forall j, (j < n)%nat -> j <> i -> ~ Wi j a).
    { intros j Hj Hn Hc. rewrite (HD j i a) in Ei; auto. discriminate. }
    (* the sequential run, seen from program i *)
    clear SEQ G1 G2 G3 G4 V O O1 F1 Hf Hs.
    assert (X : forall d k m m1, (k + d = n)%nat -> run_tasks (map prog (seq k d)) L m = Some (tt, m1) ->
      (forall j b, (k <= j < n)%nat -> Li j b = true -> m b = m0 b) ->
      m1 a = if (k <=? i)%nat then fin i a else m a).
    { clear m1 R1. induction d as [|d IH]; intros k m m1 Hk; cbn [seq map run_tasks].
      - intros E _. injection E as <-. destruct (k <=? i)%nat eqn:E; auto. lia.
      - intros R Hag. rewrite run_bind in R.
        destruct (run_agree _ (prog k) (Li k) m0 m tt (fin k)) as (mk & Rk & Ak).
        { intros b Hb. symmetry. apply (Hag k); auto. lia. }
        { apply HR. lia. }
        rewrite (run_mono _ (prog k) (Li k) L m _ (fun b => HL k b ltac:(lia)) Rk) in R.
        assert (O : forall b, ~ Wi k b -> mk b = m b).
        { intros b Hb. exact (wf_only _ _ _ _ _ _ _ b (HW k ltac:(lia)) Rk Hb). }
        rewrite (IH (S k) mk m1); auto; try lia.
        + destruct (Nat.eq_dec k i) as [->|Hn].
          * replace (i <=? i)%nat with true by lia. replace (S i <=? i)%nat with false by lia. rewrite <- Ak; auto.
          * rewrite O by (apply D2; auto; lia). destruct (k <=? i)%nat eqn:E1, (S k <=? i)%nat eqn:E2; auto; lia.
        + intros j b Hj Hb. rewrite O; [apply (Hag j); auto; lia|]. intros Hc. rewrite (HD k j b) in Hb; auto; try lia; discriminate. }
    rewrite (X n 0%nat m0 m1); auto.
  - rewrite O, O1; auto; intros j Hj Hc; apply HWL in Hc; auto; rewrite D in Hc; auto; discriminate.
Qed.
Print Assumptions C26_interleaving.

(* ---- the tile tasks of the matrix-matrix product ---- *)

Definition cellb (X : view) (a : Z) : bool :=
  let d := a - elems X in
  (0 <=? d) && (0 <? step X) && (d mod step X <? rows X) && (d / step X <? cols X).

Lemma cellb_spec : forall X a, wf X -> cellb X a = true <-> cell X a.
Proof.
  intros X a (H1 & H2 & H3). unfold cellb. split.
  - intros H. assert (0 < step X) by lia. set (d := a - elems X) in *.
    pose proof (Z.mod_pos_bound d (step X)). pose proof (Z_div_mod_eq_full d (step X)).
    assert (0 <= d / step X) by (apply Z.div_pos; lia).
    exists (d mod step X), (d / step X). split; [split; lia|]. unfold d in *. lia.
  - intros (i & j & (Hi & Hj) & ->). replace (elems X + j * step X + i - elems X) with (i + j * step X) by lia.
    rewrite Z.div_add, Z.mod_add, Z.mod_small, Z.div_small by lia. nia.
Qed.

Definition inbufb (cb : cbuf) (p a : Z) : bool := (c_data cb <=? a * p) && ((a + 1) * p <=? c_data cb + c_len cb).
Lemma inbufb_spec : forall cb p a, inbufb cb p a = true <-> inbuf cb p a.
Proof. intros. unfold inbufb, inbuf. lia. Qed.

Definition blkv (C : view) (b : block) : view := armas_submatrix_unsafe C (b_row b) (b_column b) (b_nrows b) (b_ncolumns b).

Lemma perm_pairs : forall A (R : A -> A -> Prop) l l', (forall x y, R x y -> R y x) ->
  Permutation l l' -> ForallOrdPairs R l -> ForallOrdPairs R l'.
Proof.
  intros A R l l' Hs H. induction H as [|x l l' H IH|x y l|l l' l'' H1 IH1 H2 IH2]; intros F; auto.
  - inversion F; subst. constructor; auto. eapply Permutation_Forall; eauto.
  - inversion F as [|? ? F1 F2]; subst. inversion F2 as [|? ? F3 F4]; subst. inversion F1; subst.
    constructor; [constructor; auto|constructor; auto].
Qed.

Lemma pairs_app : forall A (R : A -> A -> Prop) l l', ForallOrdPairs R (l ++ l') ->
  ForallOrdPairs R l /\ ForallOrdPairs R l' /\ forall x y, In x l -> In y l' -> R x y.
Proof.
  intros A R. induction l as [|a l IH]; intros l' H; cbn [app] in H.
  - split; [constructor|]. split; auto. intros x y [].
  - inversion H as [|? ? F1 F2]; subst. destruct (IH l' F2) as (I1 & I2 & I3). rewrite Forall_app in F1. destruct F1 as (F1 & F1').
    split; [constructor; auto|]. split; auto. intros x y [<-|Hx] Hy; auto. rewrite Forall_forall in F1'. auto.
Qed.

(* the blocks of the workers k, .., k+n-1 *)
Definition assigned (todo : nat -> list block) (n : nat) : list block := flat_map todo (seq 0 n).

Lemma assigned_pairs : forall (R : block -> block -> Prop) todo n, (forall x y, R x y -> R y x) ->
  ForallOrdPairs R (assigned todo n) ->
  (forall i, (i < n)%nat -> ForallOrdPairs R (todo i)) /\
  (forall i j b b', (i < n)%nat -> (j < n)%nat -> i <> j -> In b (todo i) -> In b' (todo j) -> R b b').
Proof.
  intros R todo n Hs. unfold assigned. induction n as [|n IH]; intros H.
  - split; intros; lia.
  - rewrite seq_S, flat_map_app in H. cbn [flat_map Nat.add] in H. rewrite app_nil_r in H.
    destruct (pairs_app _ _ _ _ H) as (H1 & H2 & H3). destruct (IH H1) as (I1 & I2). split.
    + intros i Hi. destruct (Nat.eq_dec i n) as [->|Hn]; auto. apply I1. lia.
    + assert (X : forall i b b', (i < n)%nat -> In b (todo i) -> In b' (todo n) -> R b b').
      { intros i b b' Hi Hb Hb'. apply H3; auto. apply in_flat_map. exists i. split; auto. apply in_seq. lia. }
      intros i j b b' Hi Hj Hij Hb Hb'. destruct (Nat.eq_dec i n) as [->|Hn]; [|destruct (Nat.eq_dec j n) as [->|Hn']].
      * apply Hs. apply (X j); auto. lia.
      * apply (X i); auto. lia.
      * apply (I2 i j); auto; lia.
Qed.

Definition blk_in (C : view) (b : block) : Prop :=
  0 <= b_row b /\ 0 <= b_column b /\ 0 <= b_nrows b /\ 0 <= b_ncolumns b /\
  b_row b + b_nrows b <= rows C /\ b_column b + b_ncolumns b <= cols C.

Lemma buf_ok_sub : forall L L' cb mb nb kb p C A B C' A' B', buf_ok L cb mb nb kb p C A B ->
  (forall a, inbuf cb p a -> L' a = true) -> (forall a, cell C' a -> cell C a) -> (forall a, cell A' a -> cell A a) ->
  (forall a, cell B' a -> cell B a) -> buf_ok L' cb mb nb kb p C' A' B'.
Proof.
  intros L L' cb mb nb kb p C A B C' A' B' (B1 & B2 & B3 & B4 & B5 & B6 & B7 & B8 & B9 & B10 & B11) HL HC HA HB.
  unfold buf_ok. repeat (split; [assumption|]). split; [|assumption]. intros a Ha. destruct (B10 a Ha) as (X1 & X2 & X3 & X4).
  repeat split; auto.
Qed.

Section W.
  Context {T : Type} (K : num T).
  Local Notation "x +' y" := (add K x y) (at level 50, left associativity).
  Local Notation "x *' y" := (mul K x y) (at level 40, left associativity).
  Hypothesis HR : is_ring K.
  Hypothesis HE : eqb_ok K.
  Variables (L : Z -> bool) (mb nb kb p : Z) (beta : T) (C : view) (alpha : T) (A B : view) (flags : Z).
  Hypotheses (WC : wf C) (WA : wf A) (WB : wf B) (DA : disjoint C A) (DB : disjoint C B)
    (NA : has flags ARMAS_CTRANSA = false) (NB : has flags ARMAS_CTRANSB = false)
    (E1 : rows C = oprows A (trA flags)) (E2 : cols C = opcols B (trB flags)) (E3 : opcols A (trA flags) = oprows B (trB flags)).

  Definition partA (b : block) : view :=
    if trA flags then armas_submatrix_unsafe A 0 (b_row b) (rows A) (b_nrows b)
    else armas_submatrix_unsafe A (b_row b) 0 (b_nrows b) (cols A).
  Definition partB (b : block) : view :=
    if trB flags then armas_submatrix_unsafe B (b_column b) 0 (b_ncolumns b) (cols B)
    else armas_submatrix_unsafe B 0 (b_column b) (rows B) (b_ncolumns b).

  Lemma compute_block_eq : forall cb b, compute_block K cb mb nb kb p beta C alpha A B flags b =
    armas_mult_kernel K beta (blkv C b) alpha (partA b) (partB b) flags (elem_cache (armas_cache_setup2 cb mb nb kb p) p).
  Proof.
    intros cb b. unfold compute_block, partA, partB, blkv, trA, trB. rewrite NA, NB, land_or.
    change ARMAS_TRANSA with (2 ^ 7). change ARMAS_TRANSB with (2 ^ 8). rewrite !land_bit, !has_bit by lia.
    destruct (Z.testbit flags 7), (Z.testbit flags 8); reflexivity.
  Qed.

  Definition mspec (m : Z -> T) (i j : Z) : T := elt m C i j *' beta +'
    vsum K (opcols A (trA flags)) (fun k => absf K flags (opelt m A (trA flags) i k) *' absf K flags (opelt m B (trB flags) k j)) *' alpha.

  Lemma part_facts : forall Lw b, blk_in C b -> allocated Lw A -> allocated Lw B ->
    mok Lw (partA b) /\ mok Lw (partB b) /\
    (forall a, cell (partA b) a -> cell A a) /\ (forall a, cell (partB b) a -> cell B a) /\
    oprows (partA b) (trA flags) = b_nrows b /\ opcols (partB b) (trB flags) = b_ncolumns b /\
    opcols (partA b) (trA flags) = opcols A (trA flags) /\ oprows (partB b) (trB flags) = oprows B (trB flags) /\
    (forall (m : Z -> T) i k, opelt m (partA b) (trA flags) i k = opelt m A (trA flags) (b_row b + i) k) /\
    (forall (m : Z -> T) k j, opelt m (partB b) (trB flags) k j = opelt m B (trB flags) k (b_column b + j)).
  Proof.
    intros Lw b (H1 & H2 & H3 & H4 & H5 & H6) LA LB. pose proof WA as (A1 & A2 & A3). pose proof WB as (B1 & B2 & B3).
    unfold partA, partB, oprows, opcols, opelt in *.
    assert (MA : mok Lw A) by (split; auto). assert (MB : mok Lw B) by (split; auto).
    split; [destruct (trA flags); apply mok_sub; auto; lia|].
    split; [destruct (trB flags); apply mok_sub; auto; lia|].
    split; [intros a; destruct (trA flags); apply subm_in; auto; lia|].
    split; [intros a; destruct (trB flags); apply subm_in; auto; lia|].
    split; [destruct (trA flags); reflexivity|].
    split; [destruct (trB flags); reflexivity|].
    split; [destruct (trA flags); reflexivity|].
    split; [destruct (trB flags); reflexivity|].
    split; [intros m i k; destruct (trA flags); rewrite subm_elt; f_equal; lia|].
    intros m k j; destruct (trB flags); rewrite subm_elt; f_equal; lia.
  Qed.

  Lemma blkv_in : forall b a, blk_in C b -> cell (blkv C b) a -> cell C a.
  Proof. intros b a (H1 & H2 & H3 & H4 & H5 & H6). apply subm_in; auto. Qed.

  Lemma blkv_pos : forall b i j, blk_in C b -> pos C i j -> cell (blkv C b) (mad C (i, j)) -> inb b i j.
  Proof. intros b i j (H1 & H2 & H3 & H4 & H5 & H6) Hp Hc. apply subm_cell in Hc; auto. Qed.

  Lemma blkv_disj : forall b b', blk_in C b -> blk_in C b' -> (forall i j, ~ (inb b i j /\ inb b' i j)) -> disjoint (blkv C b) (blkv C b').
  Proof.
    intros b b' Hb Hb' Hd a Ha Ha'. pose proof (blkv_in b a Hb Ha) as (i & j & Hp & E). subst a.
    apply (Hd i j). split; apply blkv_pos; auto.
  Qed.

  (* one task *)
  Lemma task_wp : forall Lw cb b m (Q : unit -> (Z -> T) -> Prop), blk_in C b ->
    allocated Lw A -> allocated Lw B -> allocated Lw (blkv C b) -> (forall a, inbuf cb p a -> Lw a = true) ->
    buf_ok L cb mb nb kb p C A B ->
    (forall m', (forall i j, inb b i j -> elt m' C i j = mspec m i j) ->
       (forall a, ~ cell (blkv C b) a -> ~ inbuf cb p a -> m' a = m a) -> Q tt m') ->
    wp (compute_block K cb mb nb kb p beta C alpha A B flags b) Lw m Q.
  Proof.
    intros Lw cb b m Q Hb LA LB LC LI BO HQ. rewrite compute_block_eq.
    destruct (part_facts Lw b Hb LA LB) as ((WA' & LA') & (WB' & LB') & SA & SB & F1 & F2 & F3 & F4 & F5 & F6).
    assert (SC : forall a, cell (blkv C b) a -> cell C a) by (intros a; apply blkv_in; auto).
    pose proof Hb as (H1 & H2 & H3 & H4 & H5 & H6).
    assert (WC' : wf (blkv C b)) by (destruct (sub_shows C (b_row b) (b_column b) (b_nrows b) (b_ncolumns b)) as (_ & _ & _ & _ & X); auto).
    apply kernel_run; auto.
    - intros a X Y. apply (DA a); auto.
    - intros a X Y. apply (DB a); auto.
    - lia.
    - eapply buf_ok_sub; eauto.
    - intros m' V O. apply HQ; auto. intros i j (Hi & Hj).
      specialize (V (i - b_row b) (j - b_column b)). unfold blkv in V. rewrite !subm_elt in V.
      replace (b_row b + (i - b_row b)) with i in V by lia. replace (b_column b + (j - b_column b)) with j in V by lia.
      rewrite V by (unfold pos; cbn; lia). unfold mspec. rewrite F3. f_equal. f_equal. apply vsum_ext. intros k Hk.
      rewrite F5, F6. replace (b_row b + (i - b_row b)) with i by lia. replace (b_column b + (j - b_column b)) with j by lia. reflexivity.
  Qed.

  Lemma mspec_out : forall b cb m m' i j, blk_in C b -> buf_ok L cb mb nb kb p C A B ->
    (forall a, ~ cell (blkv C b) a -> ~ inbuf cb p a -> m' a = m a) -> pos C i j -> ~ inb b i j -> mspec m' i j = mspec m i j.
  Proof.
    intros b cb m m' i j Hb BO O Hp Hn.
    destruct BO as (_ & _ & _ & _ & _ & _ & _ & _ & _ & BI & _).
    assert (OA : forall i k, pos A i k -> elt m' A i k = elt m A i k).
    { intros i' k' Hp'. rewrite !elt_mad. assert (X : cell A (mad A (i', k'))) by (exists i', k'; auto).
      apply O; [intros Hc|intros Hc; apply BI in Hc; tauto]. apply (DA _ (blkv_in b _ Hb Hc)). auto. }
    assert (OB : forall i k, pos B i k -> elt m' B i k = elt m B i k).
    { intros i' k' Hp'. rewrite !elt_mad. assert (X : cell B (mad B (i', k'))) by (exists i', k'; auto).
      apply O; [intros Hc|intros Hc; apply BI in Hc; tauto]. apply (DB _ (blkv_in b _ Hb Hc)). auto. }
    destruct Hp as (Hi & Hj). unfold mspec. f_equal; f_equal.
    - rewrite !elt_mad. apply O.
      + intros Hc. apply Hn. apply blkv_pos; auto. split; auto.
      + intros Hc. apply BI in Hc. destruct Hc as (_ & Hc & _). apply Hc. exists i, j. split; auto. split; auto.
    - apply vsum_ext. intros k Hk. f_equal; f_equal; unfold opelt, oprows, opcols in *.
      + destruct (trA flags); apply OA; split; lia.
      + destruct (trB flags); apply OB; split; lia.
  Qed.

  (* the tasks of one worker *)
  Lemma tasks_wp : forall Lw cb l m, (forall b, In b l -> blk_in C b) ->
    ForallOrdPairs (fun b b' => forall i j, ~ (inb b i j /\ inb b' i j)) l ->
    allocated Lw A -> allocated Lw B -> (forall b, In b l -> allocated Lw (blkv C b)) ->
    (forall a, inbuf cb p a -> Lw a = true) -> buf_ok L cb mb nb kb p C A B ->
    wp (run_tasks (map (compute_block K cb mb nb kb p beta C alpha A B flags) l)) Lw m (fun _ m' =>
      (forall b i j, In b l -> inb b i j -> elt m' C i j = mspec m i j)).
  Proof.
    intros Lw cb l m Hin FO LA LB LC LI BO.
    cut (wp (run_tasks (map (compute_block K cb mb nb kb p beta C alpha A B flags) l)) Lw m (fun _ m' =>
      (forall b i j, In b l -> inb b i j -> elt m' C i j = mspec m i j) /\
      (forall i j, pos C i j -> (forall b, In b l -> ~ inb b i j) -> elt m' C i j = elt m C i j))).
    { intros H. eapply wp_conseq; [exact H|]. intros x m' (X & _). exact X. }
    revert m. induction l as [|b l IH]; intros m; cbn [map run_tasks].
    - apply wp_ret. split; auto. intros b i j [].
    - inversion FO as [|? ? F1 F2]; subst. wbind.
      pose proof (Hin b (or_introl eq_refl)) as Hb.
      apply task_wp with (Lw := Lw) (cb := cb) (b := b); auto.
      { apply LC. left; auto. }
      intros m1 V1 O1. eapply wp_conseq; [apply IH; auto|].
      { intros b' Hb'. apply Hin. right; auto. }
      { intros b' Hb'. apply LC. right; auto. }
      intros x m' (V & O). rewrite Forall_forall in F1. split.
      + intros b' i j [<-|Hb'] Hij.
        * rewrite O; [apply V1; auto| |].
          -- destruct Hb as (H1 & H2 & H3 & H4 & H5 & H6), Hij. split; lia.
          -- intros b' Hb' Hc. apply (F1 b' Hb' i j). auto.
        * rewrite (V b' i j) by auto. eapply mspec_out; eauto.
          -- pose proof (Hin b' (or_intror Hb')) as (H1 & H2 & H3 & H4 & H5 & H6). destruct Hij. split; lia.
          -- intros Hc. apply (F1 b' Hb' i j). auto.
      + intros i j Hp Hn. rewrite O; auto; [|intros b' Hb'; apply Hn; right; auto].
        rewrite !elt_mad. apply O1.
        * intros Hc. apply (Hn b); [left; auto|]. apply blkv_pos; auto.
        * intros Hc. destruct BO as (_ & _ & _ & _ & _ & _ & _ & _ & _ & BI & _). apply BI in Hc.
          destruct Hc as (_ & Hc & _). apply Hc. exists i, j. auto.
  Qed.

  Lemma task_foot : forall cb b, blk_in C b -> buf_ok L cb mb nb kb p C A B ->
    wfoot (fun a => cell (blkv C b) a \/ inbuf cb p a) (compute_block K cb mb nb kb p beta C alpha A B flags b).
  Proof.
    intros cb b Hb BO. rewrite compute_block_eq. destruct (buf_facts L cb mb nb kb p C A B BO) as (_ & _ & IA & IB).
    pose proof Hb as (H1 & H2 & H3 & H4 & H5 & H6).
    eapply wf_mono; [|apply kernel_foot].
    - intros a [Ha|[Ha|Ha]]; auto.
    - destruct (sub_shows C (b_row b) (b_column b) (b_nrows b) (b_ncolumns b)) as (_ & _ & _ & _ & X); auto.
  Qed.

  (* the addresses worker w accesses, and those it writes *)
  Variables (n : nat) (cb : nat -> cbuf) (todo : nat -> list block) (l : list block).
  Definition wacc (w : nat) (a : Z) : bool :=
    cellb A a || cellb B a || existsb (fun b => cellb (blkv C b) a) (todo w) || inbufb (cb w) p a.
  Definition wwr (w : nat) (a : Z) : Prop := (exists b, In b (todo w) /\ cell (blkv C b) a) \/ inbuf (cb w) p a.

  Hypotheses (LA : allocated L A) (LB : allocated L B) (LC : allocated L C)
    (PT : partitions l (rows C) (cols C)) (PM : Permutation (assigned todo n) l)
    (BO : forall w, (w < n)%nat -> buf_ok L (cb w) mb nb kb p C A B)
    (BD : forall w w' a, (w < n)%nat -> (w' < n)%nat -> w <> w' -> inbuf (cb w) p a -> ~ inbuf (cb w') p a).

  Lemma todo_in : forall w b, (w < n)%nat -> In b (todo w) -> blk_in C b.
  Proof.
    intros w b Hw Hb. destruct PT as (_ & H & _ & _). apply H. eapply Permutation_in; [exact PM|].
    apply in_flat_map. exists w. split; auto. apply in_seq. lia.
  Qed.

  Lemma todo_pairs :
    (forall i, (i < n)%nat -> ForallOrdPairs (fun b b' => forall x y, ~ (inb b x y /\ inb b' x y)) (todo i)) /\
    (forall i j b b', (i < n)%nat -> (j < n)%nat -> i <> j -> In b (todo i) -> In b' (todo j) ->
       forall x y, ~ (inb b x y /\ inb b' x y)).
  Proof.
    apply assigned_pairs.
    - intros b b' H x y (X & Y). apply (H x y). auto.
    - destruct PT as (_ & _ & H & _). eapply perm_pairs; [|apply Permutation_sym; exact PM|exact H].
      intros b b' H' x y (X & Y). apply (H' x y). auto.
  Qed.

  Lemma blkv_wf : forall b, blk_in C b -> wf (blkv C b).
  Proof.
    intros b (H1 & H2 & H3 & H4 & H5 & H6).
    destruct (sub_shows C (b_row b) (b_column b) (b_nrows b) (b_ncolumns b)) as (_ & _ & _ & _ & X); auto.
  Qed.

  Lemma wacc_spec : forall w a, (w < n)%nat -> wacc w a = true <->
    cell A a \/ cell B a \/ (exists b, In b (todo w) /\ cell (blkv C b) a) \/ inbuf (cb w) p a.
  Proof.
    intros w a Hw. unfold wacc. rewrite !orb_true_iff, existsb_exists, !cellb_spec, inbufb_spec by auto.
    split.
    - intros [[[H|H]|(b & H1 & H2)]|H]; auto. right; right; left. exists b. split; auto. apply cellb_spec; auto.
      apply blkv_wf. eapply todo_in; eauto.
    - intros [H|[H|[(b & H1 & H2)|H]]]; auto. left; right. exists b. split; auto. apply cellb_spec; auto.
      apply blkv_wf. eapply todo_in; eauto.
  Qed.

  Lemma workers_run : forall m0, exists m1 bound,
    run_tasks (map (mult_pool K cb mb nb kb p beta C alpha A B flags todo) (seq 0 n)) L m0 = Some (tt, m1) /\
    (forall q s, psteps L n q (m0, mult_pool K cb mb nb kb p beta C alpha A B flags todo) s ->
      ~ racing n s /\ ~ stuck L n s /\ (q <= bound)%nat /\
      (finished n s ->
         (forall i j, pos C i j -> elt (fst s) C i j = mspec m0 i j) /\
         (forall a, ~ cell C a -> (forall w, (w < n)%nat -> ~ inbuf (cb w) p a) -> fst s a = m0 a) /\
         (forall a, fst s a = m1 a))).
  Proof.
    intros m0. destruct todo_pairs as (TP1 & TP2).
    set (prog := mult_pool K cb mb nb kb p beta C alpha A B flags todo).
    assert (EX : forall w, (w < n)%nat -> exists f, prog w (wacc w) m0 = Some (tt, f) /\
      forall b i j, In b (todo w) -> inb b i j -> elt f C i j = mspec m0 i j).
    { intros w Hw. assert (S : forall a, _ <-> _) by (intros a; exact (wacc_spec w a Hw)).
      destruct (tasks_wp (wacc w) (cb w) (todo w) m0) as ([] & f & R & V); eauto using todo_in.
      - intros a Ha. apply S. auto.
      - intros a Ha. apply S. auto.
      - intros b Hb a Ha. apply S. right; right; left; exists b; auto.
      - intros a Ha. apply S. auto. }
    assert (FIN : exists fin, forall w, (w < n)%nat -> prog w (wacc w) m0 = Some (tt, fin w) /\
      forall b i j, In b (todo w) -> inb b i j -> elt (fin w) C i j = mspec m0 i j).
    { exists (fun w => match prog w (wacc w) m0 with Some (_, f) => f | None => m0 end). intros w Hw.
      destruct (EX w Hw) as (f & R & V). rewrite R. auto. }
    destruct FIN as (fin & FIN).
    assert (HW : forall i, (i < n)%nat -> wfoot (wwr i) (prog i)).
    { intros w Hw. apply wf_tasks. intros c Hc. apply in_map_iff in Hc. destruct Hc as (b & <- & Hb).
      eapply wf_mono; [|apply task_foot; eauto using todo_in]. intros a [Ha|Ha]; [left|right]; eauto. }
    assert (HD : forall i j a, (i < n)%nat -> (j < n)%nat -> i <> j -> wwr i a -> wacc j a = false).
    { intros i j a Hi Hj Hij Ha. destruct (wacc j a) eqn:E; auto. exfalso. apply wacc_spec in E; auto.
      destruct (BO j Hj) as (_ & _ & _ & _ & _ & _ & _ & _ & _ & BIj & _).
      destruct (BO i Hi) as (_ & _ & _ & _ & _ & _ & _ & _ & _ & BIi & _).
      destruct Ha as [(b & Hb & Ha)|Ha].
      - pose proof (blkv_in b a (todo_in i b Hi Hb) Ha) as HC. destruct E as [E|[E|[(b' & Hb' & E)|E]]].
        + apply (DA a); auto.
        + apply (DB a); auto.
        + eapply (blkv_disj b b'); eauto using todo_in.
        + apply BIj in E. tauto.
      - pose proof (BIi a Ha) as (X1 & X2 & X3 & X4). destruct E as [E|[E|[(b' & Hb' & E)|E]]]; auto.
        + apply X2. eapply blkv_in; eauto using todo_in.
        + apply (BD i j a); auto. }
    assert (HWL : forall i a, (i < n)%nat -> wwr i a -> wacc i a = true).
    { intros i a Hi Ha. apply wacc_spec; auto; destruct Ha as [Ha|Ha]; auto. }
    assert (HL : forall i a, (i < n)%nat -> wacc i a = true -> L a = true).
    { intros i a Hi Ha. apply wacc_spec in Ha; auto. destruct Ha as [Ha|[Ha|[(b & Hb & Ha)|Ha]]]; auto.
      - apply LC. eapply blkv_in; eauto using todo_in.
      - apply (BO i Hi) in Ha. tauto. }
    destruct (C26_interleaving T L n prog wacc wwr m0 fin HW HD HWL HL (fun i Hi => proj1 (FIN i Hi))) as (m1 & bound & R1 & G).
    exists m1, bound. split; [exact R1|]. intros q s Hs. destruct (G q s Hs) as (G1 & G2 & G3 & G4).
    repeat (split; [assumption|]). intros Hf.
    destruct (Inv_good L n prog wacc wwr m0 fin HD HL q s) as (_ & _ & _ & I4).
    { eapply Inv_steps; eauto. intros i Hi. apply FIN; auto. }
    destruct (I4 Hf) as (V & O). split; [|split; [|auto]].
    - intros i j Hp. destruct PT as (_ & _ & _ & Hcov). destruct (Hcov i j) as (b & Hb & Hij); try apply Hp.
      apply (Permutation_in b (Permutation_sym PM)) in Hb. apply in_flat_map in Hb. destruct Hb as (w & Hw & Hb).
      apply in_seq in Hw. assert (Hw' : (w < n)%nat) by lia.
      destruct (FIN w Hw') as (_ & Fv). rewrite <- (Fv b i j Hb Hij). rewrite !elt_mad. apply (V w); auto.
      apply wacc_spec; auto. right; right; left. exists b. split; auto.
      exists (i - b_row b), (j - b_column b). destruct Hij as (Hi & Hj). split; [split; cbn; lia|]. unfold mad, blkv. cbn. lia.
    - intros a Ha Hb. apply O. intros w Hw [(b & Hib & Hc)|Hc]; [|exact (Hb w Hw Hc)].
      apply Ha. eapply blkv_in; eauto using todo_in.
  Qed.
End W.

(* Workers compute C = beta*C + alpha*op(A)*op(B) tile by tile.  Whatever the partition of C into
   blocks, whichever worker runs which blocks in which order, and however the accesses of the
   workers interleave: no data race, no access outside of the allocated memory, a bounded number of
   steps, and when all workers have finished every element of C has the value of the sequential
   product and nothing but C and the scratch buffers of the workers has changed.
   Missing: CTRANSA and CTRANSB (C26_ctrans_refuted), ABSA and ABSB (C26_workers_sequential_partial),
   configurations without usable blocks, other parallel operations. *)
Theorem C26_workers_mult_partial : forall T (K : num T), is_ring K -> eqb_ok K ->
  forall L mb nb kb p beta C alpha A B flags n (cb : nat -> cbuf) (todo : nat -> list block) l (m0 : Z -> T),
    wf C -> wf A -> wf B -> allocated L C -> allocated L A -> allocated L B -> disjoint C A -> disjoint C B ->
    has flags ARMAS_CTRANSA = false -> has flags ARMAS_CTRANSB = false -> no_abs flags ->
    rows C = oprows A (trA flags) -> cols C = opcols B (trB flags) -> opcols A (trA flags) = oprows B (trB flags) ->
    partitions l (rows C) (cols C) -> Permutation (flat_map todo (seq 0 n)) l ->
    (forall w, (w < n)%nat -> buf_ok L (cb w) mb nb kb p C A B) ->
    (forall w w' a, (w < n)%nat -> (w' < n)%nat -> w <> w' -> inbuf (cb w) p a -> ~ inbuf (cb w') p a) ->
    exists bound, forall q s, psteps L n q (m0, mult_pool K cb mb nb kb p beta C alpha A B flags todo) s ->
      ~ racing n s /\ ~ stuck L n s /\ (q <= bound)%nat /\
      (finished n s ->
         (forall i j, pos C i j -> elt (fst s) C i j = add K (mul K beta (elt m0 C i j))
            (mul K alpha (vsum K (opcols A (trA flags)) (fun k =>
               mul K (opelt m0 A (trA flags) i k) (opelt m0 B (trB flags) k j))))) /\
         (forall a, ~ cell C a -> (forall w, (w < n)%nat -> ~ inbuf (cb w) p a) -> fst s a = m0 a)).
Proof.
  intros T K HR HE L mb nb kb p beta C alpha A B flags n cb todo l m0 WC WA WB LC LA LB DA DB NA NB (HA1 & HA2) E1 E2 E3 PT PM BO BD.
  destruct (workers_run K HR HE L mb nb kb p beta C alpha A B flags WC WA WB DA DB NA NB E1 E2 E3 n cb todo l LA LB LC PT PM BO BD m0)
    as (m1 & bound & R & H).
  exists bound. intros q s Hs. destruct (H q s Hs) as (G1 & G2 & G3 & G4). repeat (split; [assumption|]).
  intros Hf. destruct (G4 Hf) as (V & O & _). split; auto. intros i j Hp. rewrite V by auto. unfold mspec, absf.
  rewrite abs_has, HA1, HA2. cbn [orb]. rewrite (Rmul_comm HR (elt m0 C i j)), (Rmul_comm HR _ alpha). reflexivity.
Qed.
Print Assumptions C26_workers_mult_partial.

(* The same for every absolute-value flag: the result is the memory that the tasks leave when run
   one after the other, and in C it is the result of the sequential armas_mult. *)
Theorem C26_workers_sequential_partial : forall T (K : num T), is_ring K -> eqb_ok K ->
  forall L mb nb kb p beta C alpha A B flags n (cb : nat -> cbuf) (todo : nat -> list block) l (m0 : Z -> T),
    wf C -> wf A -> wf B -> allocated L C -> allocated L A -> allocated L B -> disjoint C A -> disjoint C B ->
    has flags ARMAS_CTRANSA = false -> has flags ARMAS_CTRANSB = false ->
    rows C = oprows A (trA flags) -> cols C = opcols B (trB flags) -> opcols A (trA flags) = oprows B (trB flags) ->
    0 < rows C -> 0 < cols C -> 0 < opcols A (trA flags) ->
    partitions l (rows C) (cols C) -> Permutation (flat_map todo (seq 0 n)) l ->
    (forall w, (w < n)%nat -> buf_ok L (cb w) mb nb kb p C A B) ->
    (forall w w' a, (w < n)%nat -> (w' < n)%nat -> w <> w' -> inbuf (cb w) p a -> ~ inbuf (cb w') p a) ->
    forall cb0, buf_ok L cb0 mb nb kb p C A B ->
    exists m1 m2,
      run_tasks (map (mult_pool K cb mb nb kb p beta C alpha A B flags todo) (seq 0 n)) L m0 = Some (tt, m1) /\
      armas_mult K (Some cb0) mb nb kb p beta C alpha A B flags L m0 = Some (0, m2) /\
      forall q s, psteps L n q (m0, mult_pool K cb mb nb kb p beta C alpha A B flags todo) s -> finished n s ->
        (forall a, fst s a = m1 a) /\ (forall i j, pos C i j -> elt (fst s) C i j = elt m2 C i j).
Proof.
  intros T K HR HE L mb nb kb p beta C alpha A B flags n cb todo l m0 WC WA WB LC LA LB DA DB NA NB E1 E2 E3 P1 P2 P3 PT PM BO BD cb0 B0.
  destruct (workers_run K HR HE L mb nb kb p beta C alpha A B flags WC WA WB DA DB NA NB E1 E2 E3 n cb todo l LA LB LC PT PM BO BD m0)
    as (m1 & bound & R & H).
  assert (ONE : one_op flags) by (split; rewrite ?NA, ?NB; apply andb_false_r).
  destruct (mult_run K HR HE L m0 cb0 mb nb kb p beta C alpha A B flags) as (m2 & R2 & V2 & _); auto.
  exists m1, m2. split; [exact R|]. split; [exact R2|]. intros q s Hs Hf. destruct (H q s Hs) as (_ & _ & _ & G4).
  destruct (G4 Hf) as (V & _ & S). split; auto. intros i j Hp. rewrite V, V2 by auto. reflexivity.
Qed.
Print Assumptions C26_workers_sequential_partial.

(* The schedules of the code satisfy the hypothesis on the blocks: row or column blocks
   (workers), tiles (workers, tiled), and one block for each of the recursively created threads. *)
Theorem C26_schedules_partial : forall T (K : num T), is_ring K -> eqb_ok K ->
  forall L mb nb kb p beta C alpha A B flags n (cb : nat -> cbuf) (todo : nat -> list block) l (m0 : Z -> T) nt nr nc fuel,
    wf C -> wf A -> wf B -> allocated L C -> allocated L A -> allocated L B -> disjoint C A -> disjoint C B ->
    has flags ARMAS_CTRANSA = false -> has flags ARMAS_CTRANSB = false -> no_abs flags ->
    rows C = oprows A (trA flags) -> cols C = opcols B (trB flags) -> opcols A (trA flags) = oprows B (trB flags) ->
    0 < nt -> nt * Z.max (rows C) (cols C) < 2 ^ 31 -> 0 < nr -> 0 < nc -> nr * rows C < 2 ^ 31 -> nc * cols C < 2 ^ 31 ->
    (Z.to_nat nt <= fuel)%nat ->
    schedule_blocks (rows C) (cols C) nt = Some l \/ schedule_tiles (rows C) (cols C) nr nc = Some l \/
      threaded_blocks fuel (rows C) (cols C) 0 nt = Some l ->
    Permutation (flat_map todo (seq 0 n)) l ->
    (forall w, (w < n)%nat -> buf_ok L (cb w) mb nb kb p C A B) ->
    (forall w w' a, (w < n)%nat -> (w' < n)%nat -> w <> w' -> inbuf (cb w) p a -> ~ inbuf (cb w') p a) ->
    exists bound, forall q s, psteps L n q (m0, mult_pool K cb mb nb kb p beta C alpha A B flags todo) s ->
      ~ racing n s /\ ~ stuck L n s /\ (q <= bound)%nat /\
      (finished n s -> forall i j, pos C i j -> elt (fst s) C i j = add K (mul K beta (elt m0 C i j))
            (mul K alpha (vsum K (opcols A (trA flags)) (fun k =>
               mul K (opelt m0 A (trA flags) i k) (opelt m0 B (trB flags) k j))))).
Proof.
  intros T K HR HE L mb nb kb p beta C alpha A B flags n cb todo l m0 nt nr nc fuel WC WA WB LC LA LB DA DB NA NB HA E1 E2 E3
    H1 H2 H3 H4 H5 H6 H7 HS PM BO BD.
  assert (PT : partitions l (rows C) (cols C)).
  { pose proof WC as (R1 & R2 & _). destruct HS as [HS|[HS|HS]].
    - destruct (C25_blocks_partial (rows C) (cols C) nt) as (l' & E & _ & X); auto. congruence.
    - destruct (C25_tiles_partial (rows C) (cols C) nr nc) as (l' & E & X); auto. congruence.
    - destruct (C25_threads_partial (rows C) (cols C) nt fuel) as (l' & E & _ & X); auto. congruence. }
  destruct (C26_workers_mult_partial T K HR HE L mb nb kb p beta C alpha A B flags n cb todo l m0) as (bound & H); auto.
  exists bound. intros q s Hs. destruct (H q s Hs) as (G1 & G2 & G3 & G4). repeat (split; [assumption|]).
  intros Hf. apply G4. auto.
Qed.
Print Assumptions C26_schedules_partial.

(* a program run to its end is an execution of the pool with that program alone *)
Lemma psteps_cons : forall T L n q (s s' s'' : (Z -> T) * pool), pstep L n s s' -> psteps L n q s' s'' -> psteps L n (S q) s s''.
Proof.
  intros T L n q s s' s'' H1 H2. induction H2 as [x|q x y z H2 IH H3].
  - econstructor; [constructor|exact H1].
  - econstructor; [apply IH; exact H1|exact H3].
Qed.

Lemma exec_one : forall T L (c : M T unit) m m' (p : pool), p 0%nat = c -> c L m = Some (tt, m') ->
  exists q p', psteps L 1 q (m, p) (m', p') /\ finished 1 (m', p').
Proof.
  intros T L. induction c as [x| |a k IH|a v k IH]; intros m m' p Hp R; cbn [run] in R.
  - injection R as _ <-. exists 0%nat, p. split; [constructor|]. intros i Hi. replace i with 0%nat by lia. cbn [snd]. rewrite Hp. destruct x. reflexivity.
  - discriminate.
  - destruct (L a) eqn:E; [|discriminate]. destruct (IH (m a) m m' (pset p 0 (k (m a)))) as (q & p' & S & F); auto.
    exists (Datatypes.S q), p'. split; auto. eapply psteps_cons; [|exact S]. econstructor; eauto.
  - destruct (L a) eqn:E; [|discriminate]. destruct (IH _ m' (pset p 0 k) eq_refl R) as (q & p' & S & F); auto.
    exists (Datatypes.S q), p'. split; auto. eapply psteps_cons; [|exact S]. econstructor; eauto.
Qed.

Definition ct_pool : pool := mult_pool Znum (fun _ => ge_cb) 64 64 160 8 0 (mkview 100 8 8 1) 1 (mkview 200 2 1 8) (mkview 300 1 1 1)
  ARMAS_CTRANSA (fun _ => [mkblock 0 0 4 1; mkblock 4 0 4 1]).
Lemma ct_run : outcome (ct_pool 0%nat) cp_L (fun a => a) (fun _ m' => m' 104 = 247838).
Proof. vm_compute. reflexivity. Qed.
Lemma outcome_inv : forall T (c : M T unit) L m (P : unit -> (Z -> T) -> Prop), outcome c L m P -> exists m', c L m = Some (tt, m') /\ P tt m'.
Proof. intros T c L m P. unfold outcome. destruct (run c L m) as [([] & m')|]; [eauto|tauto]. Qed.
Lemma ct_exec : exists q m' p', psteps cp_L 1 q (fun a => a, ct_pool) (m', p') /\ finished 1 (m', p') /\ m' 104 = 247838.
Proof.
  destruct (outcome_inv _ _ _ _ _ ct_run) as (m' & E & V).
  destruct (exec_one Z cp_L (ct_pool 0%nat) (fun a => a) m' ct_pool eq_refl E) as (q & p' & S & F).
  exists q, m', p'. split; [exact S|]. split; [exact F|]. exact V.
Qed.

(* CTRANSA: the tasks use rows of A where the kernel expects columns.  The sequential product is
   right (C24_mult_partial); the task of the second block computes with elements outside of A and B. *)
Theorem C26_ctrans_refuted : exists C A B L m0 cb mb nb kb p l,
  wf C /\ wf A /\ wf B /\ allocated L C /\ allocated L A /\ allocated L B /\ disjoint C A /\ disjoint C B /\
  rows C = cols A /\ cols C = cols B /\ rows A = rows B /\ buf_ok L cb mb nb kb p C A B /\
  schedule_blocks (rows C) (cols C) 2 = Some l /\ partitions l (rows C) (cols C) /\
  exists q s, psteps L 1 q (m0, mult_pool Znum (fun _ => cb) mb nb kb p 0 C 1 A B ARMAS_CTRANSA (fun _ => l)) s /\
    finished 1 s /\
    ~ (forall i j, pos C i j -> elt (fst s) C i j =
         0 * elt m0 C i j + 1 * vsum Znum (rows A) (fun k => elt m0 A k i * elt m0 B k j)).
Proof.
  pose (m0 := fun a : Z => a).
  exists (mkview 100 8 8 1), (mkview 200 2 1 8), (mkview 300 1 1 1), cp_L, m0, ge_cb, 64, 64, 160, 8,
    [mkblock 0 0 4 1; mkblock 4 0 4 1].
  destruct (ge_ok 8 1 8 1 8 2 1 1 1) as (X1 & X2 & X3 & X4 & X5 & X6 & X7 & X8 & X9); try lia.
  assert (BO : buf_ok cp_L ge_cb 64 64 160 8 (mkview 100 8 8 1) (mkview 200 2 1 8) (mkview 300 1 1 1)).
  { unfold buf_ok. repeat (split; [first [exact X9|reflexivity|cbn; lia]|]). vm_compute. auto using Z.le_refl. repeat split; discriminate. }
  repeat (split; [first [assumption|reflexivity|cbn; lia]|]).
  split.
  { destruct (C25_blocks_partial 8 1 2) as (l & E & _ & X); try lia. cbn [rows cols].
    assert (E' : schedule_blocks 8 1 2 = Some [mkblock 0 0 4 1; mkblock 4 0 4 1]) by reflexivity. congruence. }
  destruct ct_exec as (q & m' & p' & S & F & V). exists q, (m', p'). split; [exact S|]. split; [exact F|].
  intros H. specialize (H 4 0 ltac:(unfold pos; cbn; lia)).
  assert (V' : elt (fst (m', p')) (mkview 100 8 8 1) 4 0 = 247838) by exact V. rewrite V' in H.
  vm_compute in H. discriminate.
Qed.
Print Assumptions C26_ctrans_refuted.

(* two workers, four tiles, one of them with three of the tiles *)
Example C26_nonvacuous : exists (C A B : view) (L : Z -> bool) (cb : nat -> cbuf) (todo : nat -> list block) (l : list block),
  wf C /\ wf A /\ wf B /\ allocated L C /\ allocated L A /\ allocated L B /\ disjoint C A /\ disjoint C B /\
  has ARMAS_TRANSB ARMAS_CTRANSA = false /\ has ARMAS_TRANSB ARMAS_CTRANSB = false /\ no_abs ARMAS_TRANSB /\
  rows C = oprows A (trA ARMAS_TRANSB) /\ cols C = opcols B (trB ARMAS_TRANSB) /\
  opcols A (trA ARMAS_TRANSB) = oprows B (trB ARMAS_TRANSB) /\
  schedule_tiles (rows C) (cols C) 2 2 = Some l /\ partitions l (rows C) (cols C) /\
  Permutation (flat_map todo (seq 0 2)) l /\
  (forall w, (w < 2)%nat -> buf_ok L (cb w) 64 64 160 8 C A B) /\
  (forall w w' a, (w < 2)%nat -> (w' < 2)%nat -> w <> w' -> inbuf (cb w) 8 a -> ~ inbuf (cb w') 8 a).
Proof.
  pose (L a := (100 <=? a) && (a <? 4000)).
  exists (mkview 100 9 9 8), (mkview 200 9 9 3), (mkview 300 8 8 3), L,
    (fun w => if Nat.eqb w 0 then mkcbuf 8192 4032 4096 1024 else mkcbuf 12288 4032 4096 1024),
    (fun w => if Nat.eqb w 0 then [mkblock 4 4 5 4; mkblock 0 0 4 4; mkblock 0 4 4 4] else [mkblock 4 0 5 4]),
    [mkblock 0 0 4 4; mkblock 4 0 5 4; mkblock 0 4 4 4; mkblock 4 4 5 4].
  destruct (ge_ok 9 8 9 9 3 9 8 3 8) as (X1 & X2 & X3 & X4 & X5 & X6 & X7 & X8 & X9); try lia.
  assert (AL : forall X, allocated cp_L X -> allocated L X).
  { intros X H a Ha. specialize (H a Ha). unfold cp_L in H. unfold L. lia. }
  repeat (split; [first [assumption|apply AL; assumption|reflexivity|split; reflexivity]|]).
  split.
  { destruct (C25_tiles_partial 9 8 2 2) as (l & E & X); try lia. cbn [rows cols].
    assert (E' : schedule_tiles 9 8 2 2 = Some [mkblock 0 0 4 4; mkblock 4 0 5 4; mkblock 0 4 4 4; mkblock 4 4 5 4]) by reflexivity. congruence. }
  split.
  { cbn. apply (Permutation_trans (l' := [mkblock 0 0 4 4; mkblock 0 4 4 4; mkblock 4 0 5 4; mkblock 4 4 5 4])).
    - change (Permutation ([mkblock 4 4 5 4] ++ [mkblock 0 0 4 4; mkblock 0 4 4 4; mkblock 4 0 5 4]) ([mkblock 0 0 4 4; mkblock 0 4 4 4; mkblock 4 0 5 4] ++ [mkblock 4 4 5 4])).
      apply Permutation_app_comm.
    - apply perm_skip, perm_swap. }
  assert (N : forall e s r c a, 0 <= r <= s -> 0 <= c -> e + c * s <= 1000 -> 1000 < a -> ~ cell (mkview e s r c) a).
  { intros e s r c a Hr Hc He Ha (i & j & (Hi & Hj) & ->). cbn in *. nia. }
  split.
  - intros [|[|w]] Hw; [| |lia]; cbn [Nat.eqb]; unfold buf_ok; repeat (split; [first [reflexivity|cbn; lia]|]);
      (split; [|vm_compute; repeat split; auto; discriminate]); intros a (Ha & Hb); cbn in Ha, Hb;
      (split; [unfold L; lia|]); repeat split; apply N; lia.
  - intros [|[|w]] [|[|w']] a H1 H2 H3; try lia; cbn [Nat.eqb]; unfold inbuf; cbn; lia.
Qed.
