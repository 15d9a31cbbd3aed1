(* Properties_CholUpd.v: rank-1 update of a Cholesky factorization (C90). *)
From Coq Require Import ZArith Lia Bool ZifyBool Ring Field Reals Lra QArith Qcanon.
From Verif Require Import Mem MView SpecView PView PSub Hoare MFlags MBase PUpd MNum SpecNum PSum PNorm PBlas2 PFrame SpecTrm MLap PLap MChol
  SpecChol PCholM PChol PSort Properties_Lu MGivens PGivens MCholUpd Inst Properties_Copy Properties_Chol Properties_Givens.
Local Open Scope Z_scope.
Local Open Scope prog_scope.
Ltac lia := Lia.lia.

Section U.
  Context {T : Type} (K : num T).
  Hypotheses (HF : is_field K) (HO : is_ordered K) (HE : eqb_ok K) (HS : sqrt_ok K).
  Let HR : is_ring K := Field_theory.F_R HF.
  Let HR' : ring_theory (zero K) (one K) (add K) (mul K) (sub K) (opp K) eq := HR.
  Add Ring KringCU : HR'.
  Local Notation "a +' b" := (add K a b) (at level 50, left associativity).
  Local Notation "a -' b" := (sub K a b) (at level 50, left associativity).
  Local Notation "a *' b" := (mul K a b) (at level 40, left associativity).
  Local Notation "0'" := (zero K).

  Definition vcol (up : bool) (A : view) (n k : Z) : view :=
    if up then subm A k (k + 1) 1 (n - k - 1) else subm A (k + 1) k (n - k - 1) 1.

  Definition gen_cholupd (up : bool) (fuel : nat) (A X : view) : M T Z :=
    r <- down_loop fuel A 1 more
      (fun _ t (XL : view) =>
         let '(X0, x1, X2) := mat_repartition_1x2to1x3 XL X 1 PBottom in
         a11val <- armas_get_unsafe (A11 t) 0 0 ;;
         x1val <- armas_get_unsafe x1 0 0 ;;
         let g := armas_gvcompute K a11val x1val in
         armas_set_unsafe (A11 t) 0 0 (snd g) ;;
         armas_gvrot_vec K (if up then A12 t else A21 t) X2 (fst (fst g)) (snd (fst g)) ;;
         ret (fst (mat_continue_1x3to1x2 X0 x1 X PBottom)))
      (mat_partition_2x2 A 0 0 PTop) (fst (mat_partition_1x2 X 0 PTop)) ;;
    ret (rows (ATL (fst r))).

  Lemma vcol_facts : forall L (up : bool) A n k, wf A -> allocated L A -> rows A = n -> cols A = n -> 0 <= k < n ->
    let V := vcol up A n k in
    isvec V /\ wf V /\ allocated L V /\ vlen V = n - k - 1 /\
    (forall (m : Z -> T) p, 0 <= p < n - k - 1 -> velt m V p = gv up A m (k + 1 + p) k) /\
    (forall a, cell V a -> cell A a) /\
    (forall i j, pos A i j -> cell V (elems A + j * step A + i) -> if up then i = k /\ k < j else j = k /\ k < i).
  Proof.
    intros L up A n k W LA Hr Hc Hk V. unfold V, vcol. destruct up.
    - destruct (subm_facts L A k (k + 1) 1 (n - k - 1)) as (F1 & F2 & F3 & F4 & F5); auto; try lia.
      split; [left; exact F3|]. split; [exact F1|]. split; [exact F2|]. split; [unfold vlen; rewrite F3, F4; lia|].
      split; [|split; [exact F5|]].
      + intros m p Hp. unfold velt, vec_pos. rewrite F3. cbn [Z.eqb Pos.eqb fst snd]. rewrite subm_elt. unfold gv. f_equal; lia.
      + intros i j Hp Hcl. apply (subm_cell A k (k + 1) 1 (n - k - 1) i j) in Hcl; auto; lia.
    - destruct (subm_facts L A (k + 1) k (n - k - 1) 1) as (F1 & F2 & F3 & F4 & F5); auto; try lia.
      split; [right; exact F4|]. split; [exact F1|]. split; [exact F2|]. split; [unfold vlen; rewrite F3, F4; lia|].
      split; [|split; [exact F5|]].
      + intros m p Hp. unfold velt, vec_pos. rewrite F3. unfold gv. destruct (n - k - 1 =? 1) eqn:E; cbn [fst snd]; rewrite subm_elt; f_equal; lia.
      + intros i j Hp Hcl. apply (subm_cell A (k + 1) k (n - k - 1) 1 i j) in Hcl; auto; lia.
  Qed.

  (* what the steps keep *)
  Definition ustate (up : bool) (n k : Z) (g g' : Z -> Z -> T) (x x' : Z -> T) : Prop :=
    let xl i := if i <? k then 0' else x' i in
    (forall i j, 0 <= i < n -> 0 <= j < n ->
       vsum K k (fun q => low K g' i q *' low K g' j q) +' xl i *' xl j =
       vsum K k (fun q => low K g i q *' low K g j q) +' x i *' x j) /\
    (forall i j, 0 <= i < n -> 0 <= j < n -> ~ (j < k /\ j <= i) -> g' i j = g i j) /\
    (forall q, 0 <= q < k -> ltb K 0' (g q q) = true -> ltb K 0' (g' q q) = true).

  Lemma ustep : forall up n k g g1 g2 x x1 x2 c s r, 0 <= k < n -> ustate up n k g g1 x x1 ->
    armas_gvcompute K (g1 k k) (x1 k) = (c, s, r) ->
    g2 k k = r ->
    (forall i, k < i < n -> g2 i k = c *' g1 i k +' s *' x1 i /\ x2 i = c *' x1 i -' s *' g1 i k) ->
    (forall i j, 0 <= i < n -> 0 <= j < n -> ~ (j = k /\ k <= i) -> g2 i j = g1 i j) ->
    ustate up n (k + 1) g g2 x x2.
  Proof.
    intros up n k g g1 g2 x x1 x2 c s r Hk (U1 & U2 & U3) G Gk Gi Go.
    pose proof (gvrotg_ok K HF HO HE HS (g1 k k) (x1 k)) as GV. unfold armas_gvcompute in G. rewrite G in GV.
    destruct GV as (V1 & V2 & V3 & V4).
    set (F := fun i => low K g1 i k). set (Y := fun i => if i <? k then 0' else x1 i).
    assert (E1 : forall i, 0 <= i < n -> low K g2 i k = c *' F i +' s *' Y i).
    { intros i Hi. unfold F, Y, low. destruct (k <=? i) eqn:E.
      - replace (i <? k) with false by lia. destruct (Z.eq_dec i k) as [->|]; [rewrite Gk; auto|]. apply Gi. lia.
      - replace (i <? k) with true by lia. ring. }
    assert (E2 : forall i, 0 <= i < n -> (if i <? k + 1 then 0' else x2 i) = c *' Y i -' s *' F i).
    { intros i Hi. unfold F, Y, low. destruct (k <=? i) eqn:E.
      - replace (i <? k) with false by lia. destruct (Z.eq_dec i k) as [->|].
        + replace (k <? k + 1) with true by lia. auto.
        + replace (i <? k + 1) with false by lia. apply Gi. lia.
      - replace (i <? k) with true by lia. replace (i <? k + 1) with true by lia. ring. }
    split; [|split].
    - intros i j Hi Hj. rewrite !(vsum_S K) by lia.
      rewrite (vsum_ext K k (fun q => low K g2 i q *' low K g2 j q) (fun q => low K g1 i q *' low K g1 j q)).
      2:{ intros q Hq. unfold low. destruct (q <=? i) eqn:Ei, (q <=? j) eqn:Ej; rewrite ?Go by lia; reflexivity. }
      cbv beta. rewrite !E1, !E2 by lia. specialize (U1 i j Hi Hj). fold (Y i) (Y j) in U1.
      assert (EF : forall i, 0 <= i < n -> low K g i k = F i).
      { intros i0 Hi0. unfold F, low. destruct (k <=? i0) eqn:E; [|reflexivity]. symmetry. apply U2; lia. }
      rewrite !EF by lia.
      transitivity (vsum K k (fun q => low K g1 i q *' low K g1 j q) +' (c *' c +' s *' s) *' (F i *' F j +' Y i *' Y j)); [ring|].
      rewrite V1. transitivity (vsum K k (fun q => low K g1 i q *' low K g1 j q) +' Y i *' Y j +' F i *' F j); [ring|].
      rewrite U1. ring.
    - intros i j Hi Hj Hn. rewrite Go by lia. apply U2; lia.
    - intros q Hq Hp. destruct (Z.eq_dec q k) as [->|].
      + rewrite Gk. apply V4. rewrite U2 by lia. exact Hp.
      + rewrite Go by lia. apply U3; auto. lia.
  Qed.

  Definition xv (X : view) (m : Z -> T) (k : Z) : T := elt m X 0 k.

  Lemma cholupd_wp : forall L m up fuel A X n, wf A -> allocated L A -> rows A = n -> cols A = n ->
    rows X = 1 -> cols X = n -> wf X -> allocated L X -> disjoint A X -> 0 < n -> n < Z.of_nat fuel ->
    wp (gen_cholupd up fuel A X) L m (fun _ m' =>
      ustate up n n (gv up A m) (gv up A m') (xv X m) (xv X m') /\
      (forall a, ~ cell A a -> ~ cell X a -> m' a = m a)).
  Proof.
    intros L m up fuel A X n W LA Hr Hc Xr Xc WX LX D Hn Hf. unfold gen_cholupd. wbind. rewrite part_at.
    apply (wp_down L A 1 more (n - 1) _ (fun k XL m' => XL = subm X 0 0 1 k /\
        ustate up n k (gv up A m) (gv up A m') (xv X m) (xv X m') /\
        (forall a, ~ cell A a -> ~ cell X a -> m' a = m a))); try lia.
    - intros q Hq. rewrite more_iff by exact Hq. lia.
    - split; [unfold mat_partition_1x2; replace (0 >? cols X) with false by lia; cbn [fst]; rewrite Xr; reflexivity|].
      split; [|auto]. split; [|split; [auto|intros; lia]].
      intros i j Hi Hj. rewrite !vsum_0 by lia. replace (i <? 0) with false by lia. replace (j <? 0) with false by lia. reflexivity.
    - intros k XL m1 Hk (-> & US & O1). replace (Z.min 1 (Z.min (rows A - k) (cols A - k))) with 1 by lia. cbv zeta.
      cbn [b3at A11 A21 A12]. unfold mat_repartition_1x2to1x3. change (cols (subm X 0 0 1 k)) with k.
      replace (k + 1 >? cols X) with false by lia. rewrite Xr, Xc, Hr, Hc.
      destruct (vcol_facts L up A n k W LA Hr Hc ltac:(lia)) as (V1 & V2 & V3 & V4 & V5 & V6 & V7).
      fold (vcol up A n k).
      change (if up then subm A k (k + 1) 1 (n - k - 1) else subm A (k + 1) k (n - k - 1) 1) with (vcol up A n k).
      destruct (subm_facts L X 0 (k + 1) 1 (n - k - 1)) as (F1 & F2 & F3 & F4 & F5); auto; try lia.
      set (V := vcol up A n k) in *. set (X2 := subm X 0 (k + 1) 1 (n - k - 1)) in *.
      assert (PA : pos A k k) by (split; lia). assert (PX : pos X 0 k) by (split; lia).
      unfold armas_get_unsafe, armas_set_unsafe. cbn [elems step armas_submatrix_unsafe armas_make].
      assert (AE : forall B i j, elems B + (j * step B + i) + (0 * step B + 0) = elems B + j * step B + i) by (intros; ring). rewrite !AE.
      wbind. apply wp_rd; [apply LA; exists k, k; auto|].
      wbind. apply wp_rd; [apply LX; exists 0, k; auto|].
      change (m1 (elems A + k * step A + k)) with (elt m1 A k k). change (m1 (elems X + k * step X + 0)) with (xv X m1 k).
      replace (elt m1 A k k) with (gv up A m1 k k) by (unfold gv; destruct up; reflexivity).
      destruct (armas_gvcompute K (gv up A m1 k k) (xv X m1 k)) as ((c & s) & r) eqn:G. cbn [fst snd].
      wbind. apply wp_wr; [apply LA; exists k, k; auto|].
      set (m2 := fun a => if a =? elems A + k * step A + k then r else m1 a).
      assert (GA : forall i j, 0 <= i < n -> 0 <= j < n -> gv up A m2 i j = if (i =? k) && (j =? k) then r else gv up A m1 i j).
      { intros i j Hi Hj. unfold gv, m2. destruct up; rewrite elt_w; auto; try (split; lia). rewrite Bool.andb_comm. reflexivity. }
      assert (GX : forall q, 0 <= q < n -> xv X m2 q = xv X m1 q).
      { intros q Hq. unfold xv, elt, m2. destruct (elems X + q * step X + 0 =? elems A + k * step A + k) eqn:E; [|reflexivity].
        exfalso. apply (D (elems A + k * step A + k)); [exists k, k; auto|exists 0, q; split; [split; lia|lia]]. }
      assert (DV : disjoint V X2) by (intros a C1 C2; apply (D a); auto).
      wbind. eapply wp_conseq; [apply gvrot_vec_wp; auto; [left; exact F3|unfold vlen in V4 |- *; rewrite F3, F4; lia]|].
      intros z m3 (_ & R1 & R2). rewrite V4 in R1. apply wp_ret.
      assert (X2E : forall mm p, velt mm X2 p = xv X mm (k + 1 + p)).
      { intros mm p. unfold velt, vec_pos. rewrite F3. cbn [Z.eqb Pos.eqb fst snd]. unfold X2. rewrite subm_elt. reflexivity. }
      replace (Z.min 1 (Z.min (n - k) (n - k))) with 1 by lia.
      split; [|split].
      + unfold mat_continue_1x3to1x2. rewrite Xr. reflexivity.
      + apply (ustep up n k (gv up A m) (gv up A m1) (gv up A m3) (xv X m) (xv X m1) (xv X m3) c s r); auto; [lia| | |].
        * assert (E : gv up A m3 k k = gv up A m2 k k).
          { unfold gv. destruct up; apply R2; intros Hcl; try (apply V7 in Hcl; auto; lia); apply (D (elems A + k * step A + k)); auto; exists k, k; auto. }
          rewrite E, GA by lia. rewrite !Z.eqb_refl. reflexivity.
        * intros i Hi. specialize (R1 (i - k - 1) ltac:(lia)). rewrite !V5, !X2E in R1 by lia.
          replace (k + 1 + (i - k - 1)) with i in R1 by lia. rewrite GA, GX in R1 by lia. replace (i =? k) with false in R1 by lia. exact R1.
        * intros i j Hi Hj Hnn. transitivity (gv up A m2 i j).
          2:{ rewrite GA by lia. replace ((i =? k) && (j =? k)) with false by lia. reflexivity. }
          unfold gv. destruct up; apply R2; intros Hcl.
          -- apply V7 in Hcl; [lia|split; lia].
          -- apply (D (elems A + i * step A + j)); auto. exists j, i. split; [split; lia|reflexivity].
          -- apply V7 in Hcl; [lia|split; lia].
          -- apply (D (elems A + j * step A + i)); auto. exists i, j. split; [split; lia|reflexivity].
      + intros a NA NX. rewrite R2 by auto. unfold m2. destruct (a =? elems A + k * step A + k) eqn:E; [|auto].
        exfalso. apply NA. exists k, k. split; [exact PA|lia].
    - intros q XL m1 Hq1 Hq2 (_ & US & O1). apply wp_ret. replace q with n in US by lia. auto.
  Qed.

  Lemma z00 : forall a, a +' 0' *' 0' = a.
  Proof. intros. ring. Qed.

  Definition rowof (X : view) : view := if cols X =? 1 then armas_col_as_row X else armas_make (rows X) (cols X) (step X) (elems X).

  Lemma rowof_facts : forall X, isvec X -> wf X -> 0 < vlen X ->
    rows (rowof X) = 1 /\ cols (rowof X) = vlen X /\ wf (rowof X) /\ (forall a, cell (rowof X) a <-> cell X a) /\
    (forall (m : Z -> T) k, 0 <= k < vlen X -> xv (rowof X) m k = velt m X k).
  Proof.
    intros X V (W1 & W2 & W3) Hn. unfold rowof, xv, vlen in *. destruct (cols X =? 1) eqn:E.
    - apply Z.eqb_eq in E. unfold armas_col_as_row. cbn [rows cols armas_make]. change (armas_size X) with (rows X * cols X).
      split; [reflexivity|]. split; [reflexivity|]. split; [split; [|split]; cbn [rows cols step armas_make]; try lia; unfold armas_size; nia|].
      split.
      + intros a. unfold cell, pos, armas_size. cbn [rows cols step elems armas_make]. split; intros (i & j & (P1 & P2) & ->).
        * exists j, 0. split; [split; nia|]. lia.
        * exists 0, i. split; [split; nia|]. nia.
      + intros m k Hk. unfold velt, vec_pos. destruct (rows X =? 1) eqn:E1; cbn [fst snd]; unfold elt; cbn [elems step armas_make]; f_equal; nia.
    - apply Z.eqb_neq in E. destruct V as [V|V]; [|lia]. cbn [rows cols armas_make].
      split; [exact V|]. split; [nia|]. split; [split; [|split]; cbn [rows cols step armas_make]; lia|].
      split; [intros a; reflexivity|].
      intros m k Hk. unfold velt, vec_pos. rewrite V. reflexivity.
  Qed.

  Lemma cholupdate_wp : forall L m fuel A X flags, wf A -> allocated L A -> rows A = cols A ->
    isvec X -> wf X -> allocated L X -> vlen X = cols A -> disjoint A X -> cols A < Z.of_nat fuel ->
    wp (armas_cholupdate K fuel A X flags) L m (fun r m' => r = 0 /\
      ustate (has flags ARMAS_UPPER) (cols A) (cols A) (gv (has flags ARMAS_UPPER) A m) (gv (has flags ARMAS_UPPER) A m') (velt m X) (velt m' X) /\
      (forall a, ~ cell A a -> ~ cell X a -> m' a = m a)).
  Proof.
    intros L m fuel A X flags W LA Sq V WX LX N D Hf. unfold armas_cholupdate.
    change (armas_size A) with (rows A * cols A). change (armas_size X) with (vlen X). rewrite N, Sq.
    assert (0 <= cols A) by (destruct W; lia).
    destruct (Z.eq_dec (cols A) 0) as [Z0|NZ].
    - rewrite Z0. cbn [Z.mul Z.eqb orb]. apply wp_ret. split; [reflexivity|]. split; [|auto].
      split; [intros; lia|]. split; intros; try lia; reflexivity.
    - replace ((cols A * cols A =? 0) || (cols A =? 0)) with false by (symmetry; nia).
      fold (rowof X). destruct (rowof_facts X V WX ltac:(lia)) as (X1 & X2 & X3 & X4 & X5).
      wbind. set (up := has flags ARMAS_UPPER).
      match goal with |- wp ?c _ _ _ => assert (EQ : c = gen_cholupd up fuel A (rowof X)) by (destruct up; reflexivity) end.
      rewrite EQ. eapply wp_conseq; [apply (cholupd_wp L m up fuel A (rowof X) (cols A)); auto; try lia|].
      + intros a Ha. apply LX, X4, Ha.
      + intros a C1 C2. apply (D a); auto. apply X4; auto.
      + intros z m' ((U1 & U2 & U3) & O). apply wp_ret. split; [reflexivity|]. split.
        * split; [|split; auto]. intros i j Hi Hj. specialize (U1 i j Hi Hj).
          replace (i <? cols A) with true in * by lia. replace (j <? cols A) with true in * by lia.
          rewrite !X5 in U1 by lia. exact U1.
        * intros a NA NX. apply O; auto. rewrite X4. exact NX.
  Qed.
End U.

(* C90: from the triangular factor of S, armas_cholupdate makes the one of S + x x^T *)
Theorem C90_cholupdate : forall T (K : num T), is_field K -> is_ordered K -> eqb_ok K -> sqrt_ok K ->
  forall L m fuel A X flags, wf A -> allocated L A -> rows A = cols A ->
  isvec X -> wf X -> allocated L X -> vlen X = cols A -> disjoint A X -> cols A < Z.of_nat fuel ->
  let up := has flags ARMAS_UPPER in
  exists m', armas_cholupdate K fuel A X flags L m = Some (0, m') /\
    (forall i j, pos A i j -> chol_elt K up m' A i j = add K (chol_elt K up m A i j) (mul K (velt m X i) (velt m X j))) /\
    (forall q, 0 <= q < cols A -> ltb K (zero K) (elt m A q q) = true -> ltb K (zero K) (elt m' A q q) = true) /\
    (forall i j, pos A i j -> ~ intri up i j -> elt m' A i j = elt m A i j) /\
    (forall a, ~ cell A a -> ~ cell X a -> m' a = m a).
Proof.
  intros T K HF HO HE HS L m fuel A X flags W LA Sq V WX LX N D Hf up.
  destruct (cholupdate_wp K HF HO HE HS L m fuel A X flags W LA Sq V WX LX N D Hf) as (r & m' & R & -> & (U1 & U2 & U3) & O).
  exists m'. split; [exact R|]. fold up in U1, U2, U3. split; [|split; [|split; [|exact O]]].
  - intros i j (Hi & Hj). specialize (U1 i j ltac:(lia) Hj).
    replace (i <? cols A) with true in U1 by lia. replace (j <? cols A) with true in U1 by lia.
    transitivity (vsum K (cols A) (fun q => mul K (low K (gv up A m') i q) (low K (gv up A m') j q))).
    { unfold chol_elt. apply vsum_ext. intros q Hq. rewrite opt_low, opt_low_t. reflexivity. }
    transitivity (add K (vsum K (cols A) (fun q => mul K (low K (gv up A m) i q) (low K (gv up A m) j q))) (mul K (velt m X i) (velt m X j))).
    { rewrite <- U1. symmetry. apply (z00 K HF). }
    f_equal. unfold chol_elt. apply vsum_ext. intros q Hq. rewrite opt_low, opt_low_t. reflexivity.
  - intros q Hq P. specialize (U3 q Hq). unfold gv in U3. destruct up; auto.
  - intros i j (Hi & Hj) Ht. unfold intri in Ht. unfold gv in U2. destruct up; [apply (U2 j i)|apply (U2 i j)]; lia.
Qed.
Print Assumptions C90_cholupdate.

(* in the words of C51: the factor of S + x x^T, and the only one, so the one factoring S + x x^T anew would give *)
Theorem C90_factor : forall T (K : num T), is_field K -> is_ordered K -> eqb_ok K -> sqrt_ok K ->
  forall L m fuel A X flags S, wf A -> allocated L A -> rows A = cols A ->
  isvec X -> wf X -> allocated L X -> vlen X = cols A -> disjoint A X -> cols A < Z.of_nat fuel ->
  let up := has flags ARMAS_UPPER in let S' i j := add K (S i j) (mul K (velt m X i) (velt m X j)) in
  is_factor K up m A S ->
  exists m', armas_cholupdate K fuel A X flags L m = Some (0, m') /\ is_factor K up m' A S' /\
    (forall m2, is_factor K up m2 A S' -> forall i j, pos A i j -> intri up i j -> elt m' A i j = elt m2 A i j).
Proof.
  intros T K HF HO HE HS L m fuel A X flags S W LA Sq V WX LX N D Hf up S' (F1 & F2).
  destruct (C90_cholupdate T K HF HO HE HS L m fuel A X flags W LA Sq V WX LX N D Hf) as (m' & R & P1 & P2 & _).
  exists m'. split; [exact R|].
  assert (F : is_factor K up m' A S').
  { split; [intros i j Hp; unfold up; rewrite P1, F1 by exact Hp; reflexivity|]. intros q Hq. apply P2; auto. }
  split; [exact F|]. intros m2 G. apply (C51_unique T K HF HE HO up A m' m2 S'); auto.
Qed.
Print Assumptions C90_factor.

(* flags that name no triangle: armas_cholesky works on the upper one, armas_cholupdate on the lower one *)
Definition cu_m (a : Z) : R := if (a =? 200) || (a =? 208) || (a =? 600) || (a =? 601) then 1%R else 0%R.
Definition cu_X : view := mkview 600 2 2 1.

Lemma cu_setting : wf (lu_A 2 2) /\ allocated cp_L (lu_A 2 2) /\ isvec cu_X /\ wf cu_X /\ allocated cp_L cu_X /\ disjoint (lu_A 2 2) cu_X.
Proof.
  unfold lu_A, cu_X, wf, isvec, allocated, disjoint, cell, pos, cp_L. cbn [rows cols step elems].
  split; [lia|]. split; [intros a (i & j & ? & ->); lia|]. split; [lia|]. split; [lia|].
  split; [intros a (i & j & ? & ->); lia|]. intros a (i & j & ? & ->) (p & q & ? & ?). lia.
Qed.

Theorem C90_flags_refuted : exists L m m' fuel A X flags S, wf A /\ allocated L A /\ rows A = cols A /\ isvec X /\ wf X /\
  allocated L X /\ vlen X = cols A /\ disjoint A X /\ is_factor Rnum (negb (has flags ARMAS_LOWER)) m A S /\
  armas_cholupdate Rnum fuel A X flags L m = Some (0, m') /\
  ~ is_factor Rnum (negb (has flags ARMAS_LOWER)) m' A (fun i j => Rplus (S i j) (Rmult (velt m X i) (velt m X j))).
Proof.
  destruct cu_setting as (H1 & H2 & H3 & H4 & H5 & H6).
  destruct (C90_cholupdate R Rnum R_field R_ordered R_eqb R_sqrt_ok cp_L cu_m 5%nat (lu_A 2 2) cu_X 0 H1 H2 eq_refl H3 H4 H5 eq_refl H6 ltac:(cbn; lia))
    as (m' & R & _ & _ & P & _).
  exists cp_L, cu_m, m', 5%nat, (lu_A 2 2), cu_X, 0, (fun i j => chol_elt Rnum true cu_m (lu_A 2 2) i j).
  do 8 (split; [first [assumption|reflexivity]|]). split; [split; [reflexivity|]|split; [exact R|]].
  - intros q Hq. cbn [cols lu_A] in Hq. assert (q = 0 \/ q = 1) as [-> | ->] by lia; apply (o_one Rnum R_field R_ordered).
  - intros (F & _). specialize (F 0 1 ltac:(split; cbn [rows cols lu_A]; lia)).
    change (negb (has 0 ARMAS_LOWER)) with true in F.
    assert (Z1 : elt m' (lu_A 2 2) 0 1 = 0%R) by (rewrite P; [reflexivity|split; cbn [rows cols lu_A]; lia|cbn; lia]).
    unfold chol_elt, vsum, optri, tri in F. cbn [cols lu_A] in F. change (Z.to_nat 2) with 2%nat in F. cbn -[elt velt] in F.
    rewrite Z1 in F.
    change (elt cu_m (lu_A 2 2) 0 1) with 0%R in F. change (velt cu_m cu_X 0) with 1%R in F. change (velt cu_m cu_X 1) with 1%R in F.
    lra.
Qed.
Print Assumptions C90_flags_refuted.

(* a vector that is too short is not reported, elements behind it are read *)
Definition cu_L (a : Z) : bool := (a =? 200) || (a =? 201) || (a =? 207) || (a =? 208) || (a =? 600).

Theorem C90_size_refuted : exists L (m : Z -> Qc) fuel A X flags, wf A /\ allocated L A /\ rows A = cols A /\ isvec X /\ wf X /\
  allocated L X /\ vlen X <> cols A /\ disjoint A X /\ cols A < Z.of_nat fuel /\
  armas_cholupdate Qcnum fuel A X flags L m = None.
Proof.
  exists cu_L, (fun _ => Q2Qc (inject_Z 1)), 5%nat, (lu_A 2 2), (mkview 600 1 1 1), ARMAS_LOWER.
  unfold lu_A, wf, isvec, allocated, disjoint, cell, pos, cu_L, vlen. cbn [rows cols step elems].
  split; [lia|]. split; [intros a (i & j & ? & ->); lia|]. split; [lia|]. split; [lia|]. split; [lia|].
  split; [intros a (i & j & ? & ->); lia|]. split; [lia|]. split; [intros a (i & j & ? & ->) (p & q & ? & ?); lia|].
  split; [lia|]. vm_compute. reflexivity.
Qed.
Print Assumptions C90_size_refuted.

(* the unit matrix and the vector of ones, as a column and as a row: S + x x^T is [2 1; 1 2] *)
Example C90_nonvacuous : forall flags X, flags = ARMAS_LOWER \/ flags = ARMAS_UPPER -> X = cu_X \/ X = mkview 600 1 1 2 ->
  exists m', armas_cholupdate Rnum 5 (lu_A 2 2) X flags cp_L cu_m = Some (0, m') /\
    is_factor Rnum (has flags ARMAS_UPPER) m' (lu_A 2 2) (fun i j => if i =? j then 2%R else 1%R).
Proof.
  intros flags X Hf HX. destruct cu_setting as (H1 & H2 & H3 & H4 & H5 & H6).
  assert (HX' : isvec X /\ wf X /\ allocated cp_L X /\ disjoint (lu_A 2 2) X /\ vlen X = 2 /\ velt cu_m X 0 = 1%R /\ velt cu_m X 1 = 1%R).
  { destruct HX as [-> | ->].
    - do 4 (split; [assumption|]). do 2 (split; [reflexivity|]). reflexivity.
    - unfold lu_A, wf, isvec, allocated, disjoint, cell, pos, cp_L. cbn [rows cols step elems].
      split; [lia|]. split; [lia|]. split; [intros a (i & j & ? & ->); lia|].
      split; [intros a (i & j & ? & ->) (p & q & ? & ?); lia|]. do 2 (split; [reflexivity|]). reflexivity. }
  destruct HX' as (G1 & G2 & G3 & G4 & G5 & G6 & G7).
  destruct (C90_factor R Rnum R_field R_ordered R_eqb R_sqrt_ok cp_L cu_m 5%nat (lu_A 2 2) X flags (fun i j => if i =? j then 1%R else 0%R)
     H1 H2 eq_refl G1 G2 G3 G5 G4 ltac:(cbn; lia)) as (m' & R & (F1 & F2) & _).
  - split.
    + intros i j (Hi & Hj). cbn [rows cols lu_A] in Hi, Hj. unfold chol_elt, vsum, optri, tri. cbn [cols lu_A]. change (Z.to_nat 2) with 2%nat.
      assert (Hi' : i = 0 \/ i = 1) by lia. assert (Hj' : j = 0 \/ j = 1) by lia.
      destruct (has flags ARMAS_UPPER), Hi' as [-> | ->], Hj' as [-> | ->]; cbn -[elt];
      change (elt cu_m (lu_A 2 2) 0 0) with 1%R; change (elt cu_m (lu_A 2 2) 1 1) with 1%R;
      change (elt cu_m (lu_A 2 2) 0 1) with 0%R; change (elt cu_m (lu_A 2 2) 1 0) with 0%R; lra.
    + intros q Hq. cbn [cols lu_A] in Hq. assert (q = 0 \/ q = 1) as [-> | ->] by lia; apply (o_one Rnum R_field R_ordered).
  - exists m'. split; [exact R|]. split; [|exact F2]. intros i j Hp. rewrite F1 by exact Hp. destruct Hp as (Hi & Hj). cbn [rows cols lu_A] in Hi, Hj.
    assert (i = 0 \/ i = 1) as [-> | ->] by lia; assert (j = 0 \/ j = 1) as [-> | ->] by lia; rewrite ?G6, ?G7; cbn [Z.eqb Pos.eqb add mul Rnum]; lra.
Qed.
