(* PFoot.v: the addresses the matrix-matrix product writes to. *)
From Coq Require Import ZArith Lia Bool ZifyBool.
From Verif Require Import Mem MView SpecView PView PSub Hoare MFlags MCopy PUpd
  MNum MBlas1 MElem MBlas2 MBase MGemm PGemm SpecPivot MPivot PPivot MSort PSort PBlas2 PFrame MPar PPar.
Local Open Scope Z_scope.
Local Open Scope prog_scope.
Ltac lia := first [zlia | Lia.lia].

Ltac wf1 := lazymatch goal with
  | |- wfoot _ (bind _ _) => apply wf_bind; [|intros ?]
  | |- wfoot _ (ret _) => exact I
  | |- wfoot _ (rd _) => apply wf_rd
  | |- wfoot _ (wr _ _) => apply wf_wr
  | |- wfoot _ (when _ _) => apply wf_when; intros ?
  | |- wfoot _ (match ?y with (_, _) => _ end) => destruct y
  | |- wfoot _ (if _ then _ else _) => apply wf_if; intros ?
  | |- wfoot _ (for_acc _ _ _ _ _) => apply wf_for_acc; [lia|intros ? ? ?]
  | |- wfoot _ (for_up _ _ _ _) => apply wf_for_up; [lia|intros ? ?]
  | |- wfoot _ (unroll4_acc _ _ _ _) => apply wf_unroll4_acc; intros ? ? ?
  | |- wfoot _ (unroll4 _ _ _) => apply wf_unroll4; intros ? ?
  | |- wfoot _ (unroll4c _ _ _) => apply wf_unroll4c; intros ? ?
  end.

Section F.
  Context {T : Type} (K : num T).
  Implicit Types (W : Z -> Prop).

  Lemma wf_unroll2_acc : forall A W N (b2 f : Z -> A -> M T A) a,
    (forall i a, 0 <= i < N - 1 -> wfoot W (b2 i a)) -> (forall i a, 0 <= i -> wfoot W (f i a)) ->
    wfoot W (unroll2_acc N b2 f a).
  Proof.
    intros A W N b2 f a H1 H2. unfold unroll2_acc. apply wf_bind; [apply wf_for_acc; auto; lia|]. intros x.
    apply wf_if; intros _; [exact I|]. apply H2. unfold loop_end. lia.
  Qed.

  Lemma wf_for_step : forall W (f : Z -> M T unit) lo hi s,
    (0 < s -> forall i, lo <= i < hi -> wfoot W (f i)) -> wfoot W (for_step lo hi s f).
  Proof.
    intros W f lo hi s H. unfold for_step. apply wf_if; intros E; [exact I|].
    apply wf_if; intros E2; [exact I|]. apply wf_for_up; [lia|]. apply H. lia.
  Qed.

  Lemma cell_at : forall C i j, 0 <= i < rows C -> 0 <= j < cols C -> cell C (elems C + (i + j * step C)).
  Proof. intros C i j Hi Hj. exists i, j. split; [split; auto|lia]. Qed.

  Lemma prod1_foot : forall W p q k, wfoot W (prod1 K p q k).
  Proof. intros. unfold prod1. repeat wf1. Qed.
  Lemma modify_foot : forall W p (op : T -> T), W p -> wfoot W (modify p op).
  Proof. intros. unfold modify. repeat wf1. auto. Qed.

  Ltac leaf := lazymatch goal with
    | |- wfoot _ (prod1 _ _ _ _) => apply prod1_foot
    | |- wfoot _ (incr _ _ _) => apply modify_foot
    | |- wfoot _ (unroll2_acc _ _ _ _) => apply wf_unroll2_acc; intros ? ? ?
    end.

  Lemma mult1c1_foot : forall W c a b alpha nR, W c -> wfoot W (mult1c1 K c a b alpha nR).
  Proof. intros. unfold mult1c1. repeat first [wf1|leaf]; auto. Qed.
  Lemma mult1c2_foot : forall W c0 c1 a b0 b1 alpha nR, W c0 -> W c1 -> wfoot W (mult1c2 K c0 c1 a b0 b1 alpha nR).
  Proof. intros. unfold mult1c2. repeat first [wf1|leaf]; auto. Qed.
  Lemma mult2c2_foot : forall W c0 c1 a0 a1 b0 b1 alpha nR, W c0 -> W c1 -> W (c0 + 1) -> W (c1 + 1) ->
    wfoot W (mult2c2 K c0 c1 a0 a1 b0 b1 alpha nR).
  Proof. intros. unfold mult2c2. repeat first [wf1|leaf]; auto. Qed.
  Lemma mult1c4_foot : forall W c0 c1 c2 c3 a b0 b1 b2 b3 alpha nR, W c0 -> W c1 -> W c2 -> W c3 ->
    wfoot W (mult1c4 K c0 c1 c2 c3 a b0 b1 b2 b3 alpha nR).
  Proof. intros. unfold mult1c4. repeat first [wf1|leaf]; auto. Qed.
  Lemma mult2c4_foot : forall W c0 c1 c2 c3 a0 a1 b0 b1 b2 b3 alpha nR, W c0 -> W c1 -> W c2 -> W c3 ->
    W (c0 + 1) -> W (c1 + 1) -> W (c2 + 1) -> W (c3 + 1) ->
    wfoot W (mult2c4 K c0 c1 c2 c3 a0 a1 b0 b1 b2 b3 alpha nR).
  Proof. intros. unfold mult2c4. repeat first [wf1|leaf]; auto. Qed.

  Lemma cell_row : forall C i j, 0 <= i < rows C - 1 -> 0 <= j < cols C -> cell C (at_ C i j + 1).
  Proof. intros C i j Hi Hj. exists (i + 1), j. unfold at_. split; [split; auto|]; lia. Qed.
  Lemma cell_at_ : forall C i j, 0 <= i < rows C -> 0 <= j < cols C -> cell C (at_ C i j).
  Proof. exact cell_at. Qed.

  Lemma odd_end : forall n, 0 <= n -> negb (loop_end 0 (n - 1) 2 =? n) = true -> 0 <= loop_end 0 (n - 1) 2 < n.
  Proof.
    intros n Hn H. destruct (Z.eq_dec n 0) as [->|Hn0].
    { exfalso. revert H. vm_compute. discriminate. }
    destruct (trips_bounds 0 (n - 1) 2 ltac:(lia) ltac:(lia)) as (X & _). lia.
  Qed.

  Lemma CMULT4_foot : forall C A B alpha j nP, 0 <= j -> j + 4 <= cols C -> 0 <= rows C ->
    wfoot (cell C) (CMULT4 K C A B alpha j (rows C) nP).
  Proof.
    intros C A B alpha j nP H1 H2 H3. unfold CMULT4. cbv zeta. wf1; wf1.
    - apply mult2c4_foot; (apply cell_at_ || apply cell_row); lia.
    - destruct (odd_end (rows C)) as (E1 & E2); auto. apply mult1c4_foot; apply cell_at_; lia.
  Qed.
  Lemma CMULT2_foot : forall C A B alpha j nP, 0 <= j -> j + 2 <= cols C -> 0 <= rows C ->
    wfoot (cell C) (CMULT2 K C A B alpha j (rows C) nP).
  Proof.
    intros C A B alpha j nP H1 H2 H3. unfold CMULT2. cbv zeta. wf1; wf1.
    - apply mult2c2_foot; (apply cell_at_ || apply cell_row); lia.
    - destruct (odd_end (rows C)) as (E1 & E2); auto. apply mult1c2_foot; apply cell_at_; lia.
  Qed.
  Lemma CMULT1_foot : forall C A B alpha j nP, 0 <= j < cols C -> wfoot (cell C) (CMULT1 K C A B alpha j (rows C) nP).
  Proof. intros C A B alpha j nP H1. unfold CMULT1. wf1. apply mult1c1_foot. apply cell_at_; lia. Qed.

  Lemma inner_foot : forall C A B alpha rb, wf C -> wfoot (cell C) (armas_mult_kernel_inner K C alpha A B rb).
  Proof.
    intros C A B alpha rb WC. pose proof WC as (C1 & C2 & C3). unfold armas_mult_kernel_inner.
    apply wf_for_step. intros Hrb kp Hkp. cbv zeta.
    set (nK := Z.min rb (rows C - kp)). assert (HnK : 0 < nK /\ kp + nK <= rows C) by (unfold nK; lia). clearbody nK.
    set (Ca := armas_submatrix_unsafe C kp 0 nK (cols C)).
    apply wf_mono with (W := cell Ca). { intros a. apply subm_in; auto; lia. }
    change (cols C) with (cols Ca). assert (ER : nK = rows Ca) by reflexivity.
    assert (0 <= rows Ca) by lia. assert (0 <= cols Ca) by (cbn; lia).
    set (Ac := armas_submatrix_unsafe A 0 kp (rows A) nK). clearbody Ac Ca. rewrite ER.
    destruct (tail_range (cols Ca)) as (R1 & R2 & R3). set (e := loop_end 0 (cols Ca - 3) 4) in *.
    wf1; wf1.
    - apply CMULT4_foot; lia.
    - exact I.
    - wf1; wf1.
      + apply CMULT2_foot; lia.
      + destruct (e <? cols Ca - 1) eqn:E; apply CMULT1_foot; lia.
  Qed.

  Lemma blk_loop_foot : forall X e nr nc, nr <= rows X -> nc <= cols X ->
    (forall p, cell X p -> wfoot (cell X) (e p)) -> wfoot (cell X) (blk_loop (T := T) e (elems X) (step X) nr nc).
  Proof.
    intros X e nr nc H1 H2 He. unfold blk_loop. repeat wf1; apply He, cell_at; lia.
  Qed.
  Lemma blk_scale_foot : forall X beta, wfoot (cell X) (blk_scale K X beta (rows X) (cols X)).
  Proof.
    intros X beta. unfold blk_scale. repeat wf1.
    - apply blk_loop_foot; try lia. intros p Hp. repeat wf1. auto.
    - apply blk_loop_foot; try lia. intros p Hp. apply modify_foot; auto.
  Qed.
  Lemma scale_foot : forall X beta, wf X -> wfoot (cell X) (armas_scale_unsafe K X beta).
  Proof.
    intros X beta WX. unfold armas_scale_unsafe. wf1; [|apply blk_scale_foot].
    assert (V : isvec X) by (apply isvector_isvec; auto). change (armas_size X) with (vlen X).
    unfold vec_scale, vec_modify. repeat wf1; apply modify_foot; rewrite vad_eq; apply vad_cell; auto; unfold vdom; lia.
  Qed.

  Lemma cp1_foot : forall W dp sp, W dp -> wfoot W (cp1 (T := T) dp sp).
  Proof. intros. unfold cp1. repeat wf1. auto. Qed.
  Lemma cpa_foot : forall W dp sp, W dp -> wfoot W (cpa K dp sp).
  Proof. intros. unfold cpa. repeat wf1. auto. Qed.

  Lemma CPBLK_foot : forall d s nR nC flags, nR <= rows d -> nC <= cols d -> wfoot (cell d) (CPBLK K d s nR nC flags).
  Proof.
    intros d s nR nC flags H1 H2. unfold CPBLK. wf1.
    - unfold copy_plain_abs. repeat wf1; apply cpa_foot, cell_at; lia.
    - unfold copy_plain_mcpy1. repeat wf1. apply cp1_foot. rewrite <- Z.add_assoc, (Z.add_comm (_ * _)). apply cell_at; lia.
  Qed.

  Lemma cell_at_e : forall C e i j, 0 <= e + i < rows C -> 0 <= j < cols C -> cell C (elems C + e + (i + j * step C)).
  Proof. intros C e i j Hi Hj. exists (e + i), j. split; [split; auto|lia]. Qed.

  Lemma CPBLK_TRANS_foot : forall d s nR nC flags, nR <= cols d -> nC <= rows d -> wfoot (cell d) (CPBLK_TRANS K d s nR nC flags).
  Proof.
    intros d s nR nC flags H1 H2. unfold CPBLK_TRANS. destruct (tail_range nC) as (R1 & R2 & R3). wf1.
    - unfold copy_trans4x1_abs, copy_trans1x4_abs. cbv zeta. set (e := loop_end 0 (nC - 3) 4) in *.
      repeat wf1; apply cpa_foot; (apply cell_at || apply cell_at_e); lia.
    - unfold copy_trans4x1, copy_trans1x4. cbv zeta. set (e := loop_end 0 (nC - 3) 4) in *.
      repeat wf1; apply cp1_foot; (apply cell_at || apply cell_at_e); lia.
  Qed.

  (* C and the two blocks of the scratch buffer *)
  Definition kfoot (C : view) (ch : cache) (a : Z) : Prop :=
    cell C a \/ cell (mkview (Acpy ch) (ab_step ch) (KB ch) (MB ch)) a \/ cell (mkview (Bcpy ch) (ab_step ch) (KB ch) (NB ch)) a.

  Lemma part_cell : forall e st r c R C a, r <= R -> c <= C -> cell (armas_make r c st e) a -> cell (mkview e st R C) a.
  Proof. intros e st r c R C a Hr Hc (i & j & (Hi & Hj) & E). cbn in *. exists i, j. split; [split; cbn; lia|]. cbn. lia. Qed.

  Lemma kernel_foot : forall beta C alpha A B flags ch, wf C ->
    wfoot (kfoot C ch) (armas_mult_kernel K beta C alpha A B flags ch).
  Proof.
    intros beta C alpha A B flags ch WC. pose proof WC as (C1 & C2 & C3). unfold armas_mult_kernel. wf1.
    { wf1. apply wf_mono with (W := cell C); [unfold kfoot; auto|]. apply scale_foot; auto. }
    cbv zeta. apply wf_for_step. intros HN jp Hjp.
    set (nJ := Z.min (NB ch) (cols C - jp)).
    assert (HnJ : 0 < nJ <= NB ch /\ jp + nJ <= cols C) by (unfold nJ; lia). clearbody nJ.
    wf1.
    { apply wf_mono with (W := cell (armas_submatrix_unsafe C 0 jp (rows C) nJ)).
      { intros a Ha. left. revert Ha. apply subm_in; auto; lia. }
      exact (blk_scale_foot (armas_submatrix_unsafe C 0 jp (rows C) nJ) beta). }
    unfold mult_panel. apply wf_for_step. intros HK kp Hkp. cbv zeta.
    set (P := if has flags transA then rows A else cols A) in *.
    set (nP := Z.min (KB ch) (P - kp)). assert (HnP : 0 < nP <= KB ch) by (unfold nP; lia). clearbody nP.
    wf1.
    { apply wf_mono with (W := cell (armas_make nP nJ (ab_step ch) (Bcpy ch))).
      { intros a Ha. right; right. eapply part_cell; [| |exact Ha]; lia. }
      wf1; [apply CPBLK_TRANS_foot|apply CPBLK_foot]; cbn; lia. }
    apply wf_for_step. intros HM ip Hip.
    set (nI := Z.min (MB ch) (rows C - ip)). assert (HnI : 0 < nI <= MB ch /\ ip + nI <= rows C) by (unfold nI; lia). clearbody nI.
    wf1.
    { apply wf_mono with (W := cell (armas_make nP nI (ab_step ch) (Acpy ch))).
      { intros a Ha. right; left. eapply part_cell; [| |exact Ha]; lia. }
      wf1; [apply CPBLK_foot|apply CPBLK_TRANS_foot]; cbn; lia. }
    apply wf_mono with (W := cell (armas_submatrix_unsafe C ip jp nI nJ)).
    { intros a Ha. left. revert Ha. apply subm_in; auto; lia. }
    apply inner_foot. destruct (sub_shows C ip jp nI nJ) as (_ & _ & _ & _ & X); auto; lia.
  Qed.
End F.
