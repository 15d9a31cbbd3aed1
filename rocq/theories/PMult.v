(* PMult.v: the blocked matrix-matrix multiplication of MGemm.v. *)
From Coq Require Import ZArith Lia Ring Bool ZifyBool.
From Verif Require Import Mem MView SpecView PView PSub Hoare MFlags MCopy PUpd PCopy
  MNum SpecNum MBlas1 PSum PBlas1 MElem PElem MBlas2 PMvec MBase MGemm PGemm PMatcpy SpecPivot MPivot PPivot MSort PSort PBlas2 PFrame.
Local Open Scope Z_scope.
Local Open Scope prog_scope.
Ltac lia := zlia.

(* memory changes only in the views C, X, Y *)
Definition outside3 {T} (C X Y : view) (m m' : Z -> T) : Prop :=
  forall a, ~ cell C a -> ~ cell X a -> ~ cell Y a -> m' a = m a.

Lemma out3_refl : forall T C X Y (m : Z -> T), outside3 C X Y m m.
Proof. intros T C X Y m a _ _ _. reflexivity. Qed.
Lemma out3_trans : forall T C X Y (m m' m'' : Z -> T), outside3 C X Y m m' -> outside3 C X Y m' m'' -> outside3 C X Y m m''.
Proof. intros T C X Y m m' m'' H1 H2 a HC HX HY. rewrite H2, H1 by auto. reflexivity. Qed.
Lemma out3_oc : forall T C X Y V (m m' : Z -> T), only_changes V m m' ->
  (forall a, cell V a -> cell C a \/ cell X a \/ cell Y a) -> outside3 C X Y m m'.
Proof. intros T C X Y V m m' H1 H2 a HC HX HY. apply H1. intros H. apply H2 in H. tauto. Qed.
Lemma out3_elt : forall T C X Y A (m m' : Z -> T) i j, outside3 C X Y m m' -> disjoint C A -> disjoint X A -> disjoint Y A ->
  pos A i j -> elt m' A i j = elt m A i j.
Proof.
  intros T C X Y A m m' i j H D1 D2 D3 Hp. assert (Hc : cell A (elems A + j * step A + i)) by (exists i, j; auto).
  apply H; intros Hc'; [apply (D1 _ Hc')|apply (D2 _ Hc')|apply (D3 _ Hc')]; auto.
Qed.

(* a block of the cache as a part of the largest block at that place *)
Lemma make_sub : forall e s r c R C, armas_make r c s e = armas_submatrix_unsafe (mkview e s R C) 0 0 r c.
Proof. intros. unfold armas_submatrix_unsafe, armas_make. cbn [step elems]. f_equal. lia. Qed.

Section K.
  Context {T : Type} (K : num T).
  Implicit Types (m : Z -> T).
  Local Notation "x +' y" := (add K x y) (at level 50, left associativity).
  Local Notation "x *' y" := (mul K x y) (at level 40, left associativity).
  Hypothesis HR : is_ring K.
  Let HR' : ring_theory (zero K) (one K) (add K) (mul K) (sub K) (opp K) eq := HR.
  Add Ring Kring : HR'.

  Lemma inner_wp : forall L m C A B alpha rb (Q : unit -> (Z -> T) -> Prop),
    mok L C -> mok L A -> mok L B -> disjoint C A -> disjoint C B ->
    rows A <= rows B -> rows C <= cols A -> cols C <= cols B -> 0 < rb ->
    (forall m', (forall i j, pos C i j -> elt m' C i j = elt m C i j +'
        vsum K (rows A) (fun k => elt m A k i *' elt m B k j) *' alpha) ->
      only_changes C m m' -> Q tt m') ->
    wp (armas_mult_kernel_inner K C alpha A B rb) L m Q.
  Proof.
    intros L m C A B alpha rb Q HC HA HB DA DB H1 H2 H3 Hrb HQ. unfold armas_mult_kernel_inner.
    destruct HC as (WC & LC), HA as (WA & LA), HB as (WB & LB).
    pose proof WC as (C1 & C2 & C3). pose proof WA as (A1 & A2 & A3).
    apply wp_for_step with (I := fun kp m' =>
      (forall i j, pos C i j -> elt m' C i j = if i <? kp then elt m C i j +'
        vsum K (rows A) (fun k => elt m A k i *' elt m B k j) *' alpha else elt m C i j) /\ only_changes C m m'); auto.
    - split; [|apply oc_refl]. intros i j (Hi & Hj). replace (i <? 0) with false by lia. reflexivity.
    - intros kp m1 Hkp (V1 & O1). cbv zeta.
      set (nK := Z.min rb (rows C - kp)). assert (HnK : 0 < nK /\ kp + nK = Z.min (kp + rb) (rows C)) by (unfold nK; lia).
      rewrite <- (proj2 HnK). clearbody nK.
      set (Ca := armas_submatrix_unsafe C kp 0 nK (cols C)). set (Ac := armas_submatrix_unsafe A 0 kp (rows A) nK).
      assert (HCa : mok L Ca) by (apply mok_sub; try split; auto; lia).
      assert (HAc : mok L Ac) by (apply mok_sub; try split; auto; lia).
      assert (Din : forall a, cell Ca a -> cell C a) by (intros a; apply subm_in; auto; lia).
      assert (Ain : forall a, cell Ac a -> cell A a) by (intros a; apply subm_in; auto; lia).
      change (wp (strip K alpha Ca Ac B) L m1 (fun _ m' => (forall i j, pos C i j -> elt m' C i j = if i <? kp + nK then elt m C i j +'
        vsum K (rows A) (fun k => elt m A k i *' elt m B k j) *' alpha else elt m C i j) /\ only_changes C m m')).
      apply strip_wp; auto; try apply HCa; try apply HAc; try (cbn; lia).
      + intros a Ha Hb. apply (DA a); auto.
      + intros a Ha Hb. apply (DB a); auto.
      + intros m2 V2 O2. split; [|eapply only_trans; [exact O1|eapply oc_mono; [exact Din|exact O2]]].
        intros i j Hp. pose proof Hp as (Hi & Hj).
        destruct (Z_lt_dec i kp) as [Hk|Hk]; [|destruct (Z_lt_dec i (kp + nK)) as [Hk'|Hk']].
        * rewrite (oc_subm C kp 0 nK (cols C) m1 m2 i j); auto; try lia. rewrite V1 by auto.
          replace (i <? kp) with true by lia. replace (i <? kp + nK) with true by lia. reflexivity.
        * assert (E : elt m2 Ca (i - kp) j = elt m2 C i j) by (unfold Ca; rewrite subm_elt; f_equal; lia).
          rewrite <- E, V2 by (unfold pos; cbn; lia). unfold Ca at 1. rewrite subm_elt.
          replace (kp + (i - kp)) with i by lia. rewrite Z.add_0_l, V1 by auto.
          replace (i <? kp) with false by lia. replace (i <? kp + nK) with true by lia. do 2 f_equal.
          apply vsum_ext. intros k Hk2. unfold Ac. rewrite subm_elt. replace (kp + (i - kp)) with i by lia. rewrite Z.add_0_l.
          cbn in Hk2. rewrite (oc_elt C A m m1), (oc_elt C B m m1); auto; unfold pos; lia.
        * rewrite (oc_subm C kp 0 nK (cols C) m1 m2 i j); auto; try lia. rewrite V1 by auto.
          replace (i <? kp) with false by lia. replace (i <? kp + nK) with false by lia. reflexivity.
    - intros m1 (V1 & O1). apply HQ; auto. intros i j Hp. rewrite V1 by auto. destruct Hp as (Hi & Hj).
      replace (i <? rows C) with true by lia. reflexivity.
  Qed.

  Lemma blk_scale_wp : forall L m A beta (Q : unit -> (Z -> T) -> Prop), eqb_ok K -> mok L A ->
    (forall m', (forall i j, pos A i j -> elt m' A i j = elt m A i j *' beta) -> only_changes A m m' -> Q tt m') ->
    wp (blk_scale K A beta (rows A) (cols A)) L m Q.
  Proof.
    intros L m A beta Q HE (WA & LA) HQ. unfold blk_scale. apply wp_if; intros E1.
    { apply HE in E1. subst. apply wp_ret. apply HQ; [|intros a _; reflexivity]. intros. ring. }
    apply wp_if; intros E2.
    + apply HE in E2. subst. unfold blk_loop.
      apply (est_all4 L A m (fun p => zero K)) with (e := fun i j => wr (elems A + (i + j * step A)) (zero K)); auto.
      * apply est_wr; auto.
      * intros m' Hu. destruct (U_end A m _ WA (mdom A) (fun _ _ => true) m' Hu) as (H1 & H2).
        { intros; split; auto. }
        apply HQ; auto. intros i j Hp. rewrite H1 by auto. ring.
    + unfold blk_loop.
      apply (est_all4 L A m (fun p => m (mad A p) *' beta)) with (e := fun i j => modify (elems A + (i + j * step A)) (fun v => v *' beta)); auto.
      * apply (est_modify L A m (fun v => v *' beta)); auto.
      * intros m' Hu. destruct (U_end A m _ WA (mdom A) (fun _ _ => true) m' Hu) as (H1 & H2).
        { intros; split; auto. }
        apply HQ; auto.
  Qed.

  Section Kernel.
    Variables (L : Z -> bool) (C A B : view) (alpha : T) (flags P : Z) (ch : cache).

    Let Av := mkview (Acpy ch) (ab_step ch) (KB ch) (MB ch).
    Let Bv := mkview (Bcpy ch) (ab_step ch) (KB ch) (NB ch).

    (* element (i, k) of op(A), element (k, j) of op(B), as used by the kernel *)
    Definition opA (m : Z -> T) (i k : Z) : T := absf K flags (if has flags transA then elt m A k i else elt m A i k).
    Definition opB (m : Z -> T) (k j : Z) : T := absf K flags (if has flags transB then elt m B j k else elt m B k j).
    Definition opdot (m : Z -> T) (n i j : Z) : T := vsum K n (fun k => opA m i k *' opB m k j).

    Definition shapeA := if has flags transA then rows A = P /\ cols A = rows C else rows A = rows C /\ cols A = P.
    Definition shapeB := if has flags transB then rows B = cols C /\ cols B = P else rows B = P /\ cols B = cols C.

    Definition blocks_ok : Prop :=
      0 < MB ch /\ 0 < NB ch /\ 0 < KB ch /\ KB ch <= ab_step ch /\ allocated L Av /\ allocated L Bv /\ disjoint Av Bv.

    Hypotheses (OC : mok L C) (OA : mok L A) (OB : mok L B) (DCA : disjoint C A) (DCB : disjoint C B)
      (DvA : disjoint Av A) (DvA' : disjoint Bv A) (DvB : disjoint Av B) (DvB' : disjoint Bv B)
      (DvC : disjoint Av C) (DvC' : disjoint Bv C) (OK : blocks_ok) (SA : shapeA) (SB : shapeB).

    Lemma opA_out : forall m m' i k, outside3 C Av Bv m m' -> 0 <= i < rows C -> 0 <= k < P -> opA m' i k = opA m i k.
    Proof.
      intros m m' i k H Hi Hk. unfold opA, shapeA in *. destruct (has flags transA); f_equal;
        (eapply out3_elt; [exact H|auto..|unfold pos; lia]).
    Qed.
    Lemma opB_out : forall m m' k j, outside3 C Av Bv m m' -> 0 <= j < cols C -> 0 <= k < P -> opB m' k j = opB m k j.
    Proof.
      intros m m' k j H Hj Hk. unfold opB, shapeB in *. destruct (has flags transB); f_equal;
        (eapply out3_elt; [exact H|auto..|unfold pos; lia]).
    Qed.

    Lemma wfAv : mok L Av.
    Proof. destruct OK as (? & ? & ? & ? & ? & ? & ?). split; auto. unfold wf, Av. cbn. lia. Qed.
    Lemma wfBv : mok L Bv.
    Proof. destruct OK as (? & ? & ? & ? & ? & ? & ?). split; auto. unfold wf, Bv. cbn. lia. Qed.

    (* columns jp .. jp+nJ-1 of C *)
    Lemma panel_wp : forall m0 jp nJ rb (Q : unit -> (Z -> T) -> Prop), 0 <= P ->
      0 <= jp -> 0 <= nJ <= NB ch -> jp + nJ <= cols C -> 0 < rb ->
      (forall m', (forall i j, pos C i j -> elt m' C i j =
           if (jp <=? j) && (j <? jp + nJ) then elt m0 C i j +' opdot m0 P i j *' alpha else elt m0 C i j) ->
         outside3 C Av Bv m0 m' -> Q tt m') ->
      wp (mult_panel K C alpha A B flags P jp nJ rb ch) L m0 Q.
    Proof.
      intros m0 jp nJ rb Q HP Hjp HnJ HjC Hrb HQ. pose proof OK as (B1 & B2 & B3 & B4 & B5 & B6 & B7).
      pose proof wfAv as HAv. pose proof wfBv as HBv.
      pose proof OC as (WC & LC). pose proof OA as (WA & LA). pose proof OB as (WB & LB).
      pose proof WC as (C1 & C2 & C3).
      unfold mult_panel.
      apply wp_for_step with (I := fun kp m =>
        (forall i j, pos C i j -> elt m C i j =
           if (jp <=? j) && (j <? jp + nJ) then elt m0 C i j +' opdot m0 kp i j *' alpha else elt m0 C i j) /\
        outside3 C Av Bv m0 m); auto.
      { split; [|apply out3_refl]. intros i j Hp. destruct ((jp <=? j) && (j <? jp + nJ)); auto.
        unfold opdot. rewrite vsum_0 by lia. ring. }
      2:{ intros m (V & O). apply HQ; auto. }
      intros kp m1 Hkp (V1 & O1). cbv zeta.
      set (nP := Z.min (KB ch) (P - kp)).
      assert (HnP : 0 < nP <= KB ch /\ kp + nP = Z.min (kp + KB ch) P) by (unfold nP; lia).
      destruct HnP as (HnP & EnP). rewrite <- EnP. assert (HkP : kp + nP <= P) by lia. clearbody nP.
      rewrite (make_sub (Bcpy ch) (ab_step ch) nP nJ (KB ch) (NB ch)). fold Bv.
      set (Bc := armas_submatrix_unsafe Bv 0 0 nP nJ).
      assert (HBc : mok L Bc) by (apply mok_sub; auto; cbn; lia).
      assert (InBc : forall a, cell Bc a -> cell Bv a) by (intros a; apply subm_in; try apply HBv; cbn; lia).
      wbind.
      assert (CB : wp (if has flags transB
           then CPBLK_TRANS K Bc (armas_submatrix_unsafe B jp kp nJ nP) nJ nP flags
           else CPBLK K Bc (armas_submatrix_unsafe B kp jp nP nJ) nP nJ flags) L m1
         (fun _ m' => (forall k j, 0 <= k < nP -> 0 <= j < nJ -> elt m' Bc k j = opB m1 (kp + k) (jp + j)) /\
                      only_changes Bc m1 m')).
      { unfold opB, shapeB in *. destruct (has flags transB).
        - apply CPBLK_TRANS_wp; auto.
          + apply mok_sub; auto; lia.
          + intros a Ha Hb. apply (DvB' a); auto. eapply subm_in; [exact WB|..|exact Hb]; lia.
          + intros m' H1 H2. split; auto. intros k j Hk Hj. rewrite H1 by (unfold pos; cbn; lia).
            rewrite subm_elt. reflexivity.
        - apply CPBLK_wp; auto.
          + apply mok_sub; auto; lia.
          + intros a Ha Hb. apply (DvB' a); auto. eapply subm_in; [exact WB|..|exact Hb]; lia.
          + intros m' H1 H2. split; auto. intros k j Hk Hj. rewrite H1 by (unfold pos; cbn; lia).
            rewrite subm_elt. reflexivity. }
      eapply wp_conseq; [exact CB|]. clear CB. intros _ m2 (V2 & O2).
      assert (O12 : outside3 C Av Bv m0 m2).
      { eapply out3_trans; [exact O1|]. eapply out3_oc; [exact O2|]. auto. }
      apply wp_for_step with (I := fun ip m =>
        (forall i j, pos C i j -> elt m C i j =
           if (jp <=? j) && (j <? jp + nJ) then elt m0 C i j +' opdot m0 (if i <? ip then kp + nP else kp) i j *' alpha else elt m0 C i j) /\
        (forall k j, 0 <= k < nP -> 0 <= j < nJ -> elt m Bc k j = opB m0 (kp + k) (jp + j)) /\
        outside3 C Av Bv m0 m); auto.
      { split; [|split; auto].
        - intros i j Hp. rewrite (oc_elt Bc C m1 m2 i j O2); auto.
          + rewrite V1 by auto. destruct Hp as (Hi & Hj). replace (i <? 0) with false by lia. reflexivity.
          + intros a Ha Hb. apply (DvC' a); auto.
        - intros k j Hk Hj. rewrite V2 by lia. apply opB_out; auto; lia. }
      2:{ intros m (V & _ & O). split; auto. intros i j Hp. rewrite V by auto. destruct Hp as (Hi & Hj).
          replace (i <? rows C) with true by lia. reflexivity. }
      clear m1 m2 V1 O1 V2 O2 O12. intros ip m1 Hip (V1 & W1 & O1).
      set (nI := Z.min (MB ch) (rows C - ip)).
      assert (HnI : 0 < nI <= MB ch /\ ip + nI = Z.min (ip + MB ch) (rows C)) by (unfold nI; lia).
      destruct HnI as (HnI & EnI). rewrite <- EnI. assert (HiC : ip + nI <= rows C) by lia. clearbody nI.
      rewrite (make_sub (Acpy ch) (ab_step ch) nP nI (KB ch) (MB ch)). fold Av.
      set (Ac := armas_submatrix_unsafe Av 0 0 nP nI).
      assert (HAc : mok L Ac) by (apply mok_sub; auto; cbn; lia).
      assert (InAc : forall a, cell Ac a -> cell Av a) by (intros a; apply subm_in; try apply HAv; cbn; lia).
      wbind.
      assert (CA : wp (if has flags transA
           then CPBLK K Ac (armas_submatrix_unsafe A kp ip nP nI) nP nI flags
           else CPBLK_TRANS K Ac (armas_submatrix_unsafe A ip kp nI nP) nI nP flags) L m1
         (fun _ m' => (forall k i, 0 <= k < nP -> 0 <= i < nI -> elt m' Ac k i = opA m1 (ip + i) (kp + k)) /\
                      only_changes Ac m1 m')).
      { unfold opA, shapeA in *. destruct (has flags transA).
        - apply CPBLK_wp; auto.
          + apply mok_sub; auto; lia.
          + intros a Ha Hb. apply (DvA a); auto. eapply subm_in; [exact WA|..|exact Hb]; lia.
          + intros m' H1 H2. split; auto. intros k i Hk Hi. rewrite H1 by (unfold pos; cbn; lia).
            rewrite subm_elt. reflexivity.
        - apply CPBLK_TRANS_wp; auto.
          + apply mok_sub; auto; lia.
          + intros a Ha Hb. apply (DvA a); auto. eapply subm_in; [exact WA|..|exact Hb]; lia.
          + intros m' H1 H2. split; auto. intros k i Hk Hi. rewrite H1 by (unfold pos; cbn; lia).
            rewrite subm_elt. reflexivity. }
      eapply wp_conseq; [exact CA|]. clear CA. intros _ m2 (V2 & O2).
      assert (O12 : outside3 C Av Bv m0 m2).
      { eapply out3_trans; [exact O1|]. eapply out3_oc; [exact O2|]. auto. }
      set (Cb := armas_submatrix_unsafe C ip jp nI nJ).
      assert (HCb : mok L Cb) by (apply mok_sub; auto; lia).
      assert (InCb : forall a, cell Cb a -> cell C a) by (intros a; apply subm_in; auto; lia).
      assert (DAcBc : disjoint Ac Bc) by (intros a Ha Hb; apply (B7 a); auto).
      apply inner_wp; auto; try (cbn; lia).
      { intros a Ha Hb. apply (DvC a); auto. }
      { intros a Ha Hb. apply (DvC' a); auto. }
      intros m3 V3 O3. split; [|split].
      - intros i j Hp. pose proof Hp as (Hi & Hj).
        assert (Eold : elt m2 C i j = elt m1 C i j).
        { apply (oc_elt Ac C m1 m2 i j O2); auto. intros a Ha Hb. apply (DvC a); auto. }
        assert (Hcase : (ip <= i < ip + nI /\ jp <= j < jp + nJ) \/ (i < ip \/ ip + nI <= i \/ j < jp \/ jp + nJ <= j)) by lia.
        destruct Hcase as [Hin|Hout].
        + assert (E : elt m3 Cb (i - ip) (j - jp) = elt m3 C i j) by (unfold Cb; rewrite subm_elt; f_equal; lia).
          rewrite <- E, V3 by (unfold pos; cbn; lia).
          assert (E2 : elt m2 Cb (i - ip) (j - jp) = elt m2 C i j) by (unfold Cb; rewrite subm_elt; f_equal; lia).
          rewrite E2, Eold, V1 by auto. replace ((jp <=? j) && (j <? jp + nJ)) with true by lia.
          replace (i <? ip) with false by lia. replace (i <? ip + nI) with true by lia.
          unfold opdot at 2. rewrite (vsum_split K HR) by lia. change (rows Ac) with nP.
          replace (vsum K nP (fun k => elt m2 Ac k (i - ip) *' elt m2 Bc k (j - jp)))
            with (vsum K nP (fun k => opA m0 i (kp + k) *' opB m0 (kp + k) j)).
          { unfold opdot. ring. }
          apply vsum_ext. intros k Hk. rewrite V2 by lia. replace (ip + (i - ip)) with i by lia.
          rewrite (opA_out m0 m1) by (auto; lia). f_equal.
          rewrite (oc_elt Ac Bc m1 m2 _ _ O2) by (auto; unfold pos; cbn; lia).
          rewrite W1 by lia. replace (jp + (j - jp)) with j by lia. reflexivity.
        + rewrite (oc_subm C ip jp nI nJ m2 m3 i j); auto; try lia. rewrite Eold, V1 by auto.
          destruct ((jp <=? j) && (j <? jp + nJ)) eqn:Ej; auto.
          replace (i <? ip + nI) with (i <? ip) by lia. reflexivity.
      - intros k j Hk Hj. rewrite (oc_elt Cb Bc m2 m3 _ _ O3).
        + rewrite (oc_elt Ac Bc m1 m2 _ _ O2) by (auto; unfold pos; cbn; lia). apply W1; auto.
        + intros a Ha Hb. apply (DvC' a); auto.
        + unfold pos; cbn; lia.
      - eapply out3_trans; [exact O12|]. eapply out3_oc; [exact O3|]. auto.
    Qed.

    Hypothesis HE : eqb_ok K.

    Lemma opdot_out : forall m m' n i j, outside3 C Av Bv m m' -> pos C i j -> n <= P -> opdot m' n i j = opdot m n i j.
    Proof.
      intros m m' n i j H (Hi & Hj) Hn. unfold opdot. apply vsum_ext. intros k Hk.
      rewrite (opA_out m m'), (opB_out m m') by (auto; lia). reflexivity.
    Qed.

    Lemma P_nonneg : 0 <= P.
    Proof.
      destruct OA as ((? & ? & ?) & _). unfold shapeA in SA. destruct (has flags transA); lia.
    Qed.
    Lemma P_eq : (if has flags transA then rows A else cols A) = P.
    Proof. unfold shapeA in SA. destruct (has flags transA); lia. Qed.

    Lemma kernel_wp : forall m0 beta (Q : unit -> (Z -> T) -> Prop), 0 < rb ch ->
      (forall m', (forall i j, pos C i j -> elt m' C i j = elt m0 C i j *' beta +' opdot m0 P i j *' alpha) ->
         outside3 C Av Bv m0 m' -> Q tt m') ->
      wp (armas_mult_kernel K beta C alpha A B flags ch) L m0 Q.
    Proof.
      intros m0 beta Q Hrb HQ. pose proof OK as (B1 & B2 & B3 & B4 & B5 & B6 & B7).
      pose proof OC as (WC & LC). pose proof WC as (C1 & C2 & C3). pose proof P_nonneg as HP.
      unfold armas_mult_kernel. apply wp_if; intros Ea.
      { apply HE in Ea. subst alpha.
        assert (H : forall m', (forall i j, pos C i j -> elt m' C i j = elt m0 C i j *' beta) -> only_changes C m0 m' -> Q tt m').
        { intros m' V O. apply HQ.
          - intros i j Hp. rewrite V by auto. ring.
          - eapply out3_oc; [exact O|]. auto. }
        apply wp_when; intros Eb.
        - apply scale_all_wp; auto.
        - apply H; [|apply oc_refl]. intros i j Hp.
          assert (Eb' : eqb K beta (one K) = true) by (destruct (eqb K beta (one K)); auto; discriminate).
          apply HE in Eb'. subst beta. ring. }
      cbv zeta. rewrite P_eq.
      apply wp_for_step with (I := fun jp m =>
        (forall i j, pos C i j -> elt m C i j =
           if j <? jp then elt m0 C i j *' beta +' opdot m0 P i j *' alpha else elt m0 C i j) /\
        outside3 C Av Bv m0 m); auto.
      { split; [|apply out3_refl]. intros i j (Hi & Hj). replace (j <? 0) with false by lia. reflexivity. }
      2:{ intros m (V & O). apply HQ; auto. intros i j Hp. rewrite V by auto. destruct Hp.
          replace (j <? cols C) with true by lia. reflexivity. }
      intros jp m1 Hjp (V1 & O1).
      set (nJ := Z.min (NB ch) (cols C - jp)).
      assert (HnJ : 0 < nJ <= NB ch /\ jp + nJ = Z.min (jp + NB ch) (cols C)) by (unfold nJ; lia).
      destruct HnJ as (HnJ & EnJ). rewrite <- EnJ. assert (HjC : jp + nJ <= cols C) by lia. clearbody nJ.
      set (Cp := armas_submatrix_unsafe C 0 jp (rows C) nJ).
      assert (HCp : mok L Cp) by (apply mok_sub; auto; lia).
      assert (InCp : forall a, cell Cp a -> cell C a) by (intros a; apply subm_in; auto; lia).
      wbind. change (rows C) with (rows Cp) at 1. change nJ with (cols Cp) at 1.
      apply blk_scale_wp; auto. intros m2 V2 O2.
      assert (O12 : outside3 C Av Bv m0 m2).
      { eapply out3_trans; [exact O1|]. eapply out3_oc; [exact O2|]. auto. }
      apply panel_wp; auto; try lia. intros m3 V3 O3. split; [|eapply out3_trans; eauto].
      intros i j Hp. pose proof Hp as (Hi & Hj). rewrite V3 by auto.
      rewrite (opdot_out m0 m2) by (auto; lia).
      destruct (Z_lt_dec j jp) as [Hlt|Hge]; [|destruct (Z_lt_dec j (jp + nJ)) as [Hlt'|Hge']].
      - replace ((jp <=? j) && (j <? jp + nJ)) with false by lia. replace (j <? jp + nJ) with true by lia.
        rewrite (oc_subm C 0 jp (rows C) nJ m1 m2 i j); auto; try lia. rewrite V1 by auto.
        replace (j <? jp) with true by lia. reflexivity.
      - replace ((jp <=? j) && (j <? jp + nJ)) with true by lia. replace (j <? jp + nJ) with true by lia.
        assert (E : elt m2 Cp i (j - jp) = elt m2 C i j) by (unfold Cp; rewrite subm_elt; f_equal; lia).
        rewrite <- E, V2 by (unfold pos; cbn; lia).
        assert (E2 : elt m1 Cp i (j - jp) = elt m1 C i j) by (unfold Cp; rewrite subm_elt; f_equal; lia).
        rewrite E2, V1 by auto. replace (j <? jp) with false by lia. reflexivity.
      - replace ((jp <=? j) && (j <? jp + nJ)) with false by lia. replace (j <? jp + nJ) with false by lia.
        rewrite (oc_subm C 0 jp (rows C) nJ m1 m2 i j); auto; try lia. rewrite V1 by auto.
        replace (j <? jp) with false by lia. reflexivity.
    Qed.

    Lemma kernel_nc_wp : forall m0 (Q : unit -> (Z -> T) -> Prop), 0 <= rb ch -> 1 < MB ch \/ 0 < rb ch <= MB ch ->
      (forall m', (forall i j, pos C i j -> elt m' C i j = elt m0 C i j +' opdot m0 P i j *' alpha) ->
         outside3 C Av Bv m0 m' -> Q tt m') ->
      wp (armas_mult_kernel_nc K C alpha A B flags ch) L m0 Q.
    Proof.
      intros m0 Q Hrb HMB HQ. pose proof OK as (B1 & B2 & B3 & B4 & B5 & B6 & B7).
      pose proof OC as (WC & LC). pose proof WC as (C1 & C2 & C3). pose proof P_nonneg as HP.
      unfold armas_mult_kernel_nc. apply wp_if; intros Ea.
      { apply HE in Ea. subst alpha. apply wp_ret. apply HQ; [|apply out3_refl]. intros. ring. }
      cbv zeta. rewrite P_eq.
      set (r := if (rb ch =? 0) || (rb ch >? MB ch) then Z.quot (MB ch) 2 else rb ch).
      assert (Hr : 0 < r).
      { unfold r. destruct ((rb ch =? 0) || (rb ch >? MB ch)) eqn:E; [|lia].
        rewrite Z.quot_div_nonneg by lia. apply Z.div_str_pos. lia. }
      clearbody r.
      apply wp_for_step with (I := fun jp m =>
        (forall i j, pos C i j -> elt m C i j =
           if j <? jp then elt m0 C i j +' opdot m0 P i j *' alpha else elt m0 C i j) /\
        outside3 C Av Bv m0 m); auto.
      { split; [|apply out3_refl]. intros i j (Hi & Hj). replace (j <? 0) with false by lia. reflexivity. }
      2:{ intros m (V & O). apply HQ; auto. intros i j Hp. rewrite V by auto. destruct Hp.
          replace (j <? cols C) with true by lia. reflexivity. }
      intros jp m1 Hjp (V1 & O1).
      set (nJ := Z.min (NB ch) (cols C - jp)).
      assert (HnJ : 0 < nJ <= NB ch /\ jp + nJ = Z.min (jp + NB ch) (cols C)) by (unfold nJ; lia).
      destruct HnJ as (HnJ & EnJ). rewrite <- EnJ. assert (HjC : jp + nJ <= cols C) by lia. clearbody nJ.
      apply panel_wp; auto; try lia. intros m3 V3 O3. split; [|eapply out3_trans; eauto].
      intros i j Hp. pose proof Hp as (Hi & Hj). rewrite V3 by auto.
      rewrite (opdot_out m0 m1) by (auto; lia). rewrite V1 by auto.
      destruct (Z_lt_dec j jp) as [Hlt|Hge]; [|destruct (Z_lt_dec j (jp + nJ)) as [Hlt'|Hge']].
      - replace ((jp <=? j) && (j <? jp + nJ)) with false by lia. replace (j <? jp + nJ) with true by lia.
        replace (j <? jp) with true by lia. reflexivity.
      - replace ((jp <=? j) && (j <? jp + nJ)) with true by lia. replace (j <? jp + nJ) with true by lia.
        replace (j <? jp) with false by lia. reflexivity.
      - replace ((jp <=? j) && (j <? jp + nJ)) with false by lia. replace (j <? jp + nJ) with false by lia.
        replace (j <? jp) with false by lia. reflexivity.
    Qed.
  End Kernel.
End K.
