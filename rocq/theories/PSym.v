(* PSym.v: symmetric matrix-vector product, symmetric and triangular rank updates. *)
From Coq Require Import ZArith Lia Ring Bool ZifyBool.
From Verif Require Import Mem MView SpecView PView PSub Hoare MFlags MCopy PUpd PCopy
  MNum SpecNum MBlas1 PSum PBlas1 MElem PElem SpecPivot MPivot PPivot MSort PSort MBlas2 PMvec PBlas2
  PFrame SpecTrm MTrm PTrm MSym.
Local Open Scope Z_scope.
Local Open Scope prog_scope.
Ltac lia := zlia.

(* one triangle of A may be accessed *)
Definition tok (L : Z -> bool) (up : bool) (A : view) : Prop := wf A /\ tri_allocated L up A.

Lemma intri_dec : forall up i j, {intri up i j} + {~ intri up i j}.
Proof. intros [] i j; cbn; [destruct (Z_le_dec i j)|destruct (Z_le_dec j i)]; auto. Qed.

(* a block inside of the triangle may be accessed *)
Lemma tok_blk : forall L up A r c nr nc, tok L up A -> 0 <= r -> 0 <= c -> 0 <= nr -> 0 <= nc ->
  r + nr <= rows A -> c + nc <= cols A ->
  (forall i j, r <= i < r + nr -> c <= j < c + nc -> intri up i j) ->
  mok L (armas_submatrix_unsafe A r c nr nc).
Proof.
  intros L up A r c nr nc (W & HT) H1 H2 H3 H4 H5 H6 Hin. split.
  - destruct (sub_shows A r c nr nc) as (_ & _ & _ & _ & W'); auto.
  - intros a (i & j & (Hi & Hj) & ->). cbn in Hi, Hj. apply HT. exists (r + i), (c + j).
    split; [split; lia|]. split; [apply Hin; lia|]. cbn -[Z.add Z.mul]. lia.
Qed.

(* the triangle of a block on the diagonal *)
Lemma tok_sub : forall L up A h nr nc, tok L up A -> 0 <= h -> 0 <= nr -> 0 <= nc ->
  h + nr <= rows A -> h + nc <= cols A -> tok L up (armas_submatrix_unsafe A h h nr nc).
Proof.
  intros L up A h nr nc (W & HT) H1 H2 H3 H4 H5. split.
  - destruct (sub_shows A h h nr nc) as (_ & _ & _ & _ & W'); auto.
  - intros a (i & j & (Hi & Hj) & Hin & ->). cbn in Hi, Hj. apply HT. exists (h + i), (h + j).
    split; [split; lia|]. split; [destruct up; cbn in *; lia|]. cbn -[Z.add Z.mul]. lia.
Qed.

Lemma tok_row : forall L A r c n, tok L true A -> 0 <= r < rows A -> r <= c -> 0 <= n -> c + n <= cols A ->
  vok L (armas_submatrix_unsafe A r c 1 n).
Proof.
  intros L A r c n H H1 H2 H3 H4. destruct (tok_blk L true A r c 1 n) as (W & ?); auto; try lia.
  { intros i j Hi Hj. cbn. lia. } split; [left; reflexivity|]. auto.
Qed.
Lemma tok_col : forall L A r c n, tok L false A -> 0 <= c < cols A -> c <= r -> 0 <= n -> r + n <= rows A ->
  vok L (armas_submatrix_unsafe A r c n 1).
Proof.
  intros L A r c n H H1 H2 H3 H4. destruct (tok_blk L false A r c n 1) as (W & ?); auto; try lia.
  { intros i j Hi Hj. cbn. lia. } split; [right; reflexivity|]. auto.
Qed.

Lemma subm_wf : forall A r c nr nc, wf A -> 0 <= r -> 0 <= c -> 0 <= nr -> 0 <= nc -> r + nr <= rows A -> c + nc <= cols A ->
  wf (armas_submatrix_unsafe A r c nr nc).
Proof. intros A r c nr nc W H1 H2 H3 H4 H5 H6. destruct (sub_shows A r c nr nc) as (_ & _ & _ & _ & W'); auto. Qed.

Section P.
  Context {T : Type} (K : num T).
  Implicit Types (m : Z -> T) (L : Z -> bool).
  Local Notation "x +' y" := (add K x y) (at level 50, left associativity).
  Local Notation "x -' y" := (sub K x y) (at level 50, left associativity).
  Local Notation "x *' y" := (mul K x y) (at level 40, left associativity).
  Hypothesis HR : is_ring K.
  Hypothesis HE : eqb_ok K.
  Let HR' : ring_theory (zero K) (one K) (add K) (mul K) (sub K) (opp K) eq := HR.
  Add Ring Kring : HR'.
  Local Notation subm := armas_submatrix_unsafe.
  Local Notation subv := armas_subvector_unsafe.

  Lemma get_tri_wp : forall L up m A i j (Q : T -> (Z -> T) -> Prop), tok L up A -> pos A i j -> intri up i j ->
    Q (elt m A i j) m -> wp (armas_get_unsafe A i j) L m Q.
  Proof.
    intros L up m A i j Q (W & HL) Hp Hin HQ. unfold armas_get_unsafe.
    apply wp_rd; [apply HL; exists i, j; split; auto; split; auto; lia|].
    replace (elems A + (j * step A + i)) with (elems A + j * step A + i) by lia. exact HQ.
  Qed.

  Lemma axpby_wp : forall L beta y alpha x m (Q : unit -> (Z -> T) -> Prop), vok L y -> vok L x -> disjoint y x ->
    vlen y <= vlen x ->
    (forall m', (forall k, 0 <= k < vlen y -> velt m' y k = beta *' velt m y k +' alpha *' velt m x k) ->
       only_changes y m m' -> Q tt m') ->
    wp (armas_axpby_unsafe K beta y alpha x) L m Q.
  Proof.
    intros L beta y alpha x m Q (Vy & Wy & Ly) (Vx & Wx & Lx) D Hl HQ.
    apply axpby_unsafe_wp; auto. intros m' Hu. apply HQ.
    - intros k Hk. rewrite !velt_vad, (upd_new _ _ _ _ _ k Hu) by auto. ring.
    - eapply vupd_only; eauto.
  Qed.

  Lemma adot_wp : forall fuel blas1min value alpha L x y m (Q : T -> (Z -> T) -> Prop), vok L x -> vok L y ->
    vlen y <= vlen x -> 0 <= blas1min -> vlen y < Z.of_nat fuel ->
    Q (value +' alpha *' vsum K (vlen y) (fun k => velt m x k *' velt m y k)) m ->
    wp (armas_adot_unsafe K fuel blas1min value alpha x y) L m Q.
  Proof.
    intros fuel blas1min value alpha L x y m Q (Vx & Wx & Lx) (Vy & Wy & Ly) Hl Hb Hf HQ.
    pose proof (vlen_nonneg y Wy) as Hy.
    unfold armas_adot_unsafe. change (armas_size y) with (vlen y). wbind.
    assert (E : forall s, value +' s *' alpha = value +' alpha *' s) by (intros; ring).
    apply wp_if; intros Eb.
    - apply vec_dot_wp; auto; try lia. apply wp_ret. rewrite E. exact HQ.
    - apply vec_dot_rec_wp; auto; try lia. apply wp_ret. rewrite E, (vsum_comm K HR). exact HQ.
  Qed.

  Lemma sym_sub : forall up m A h nr nc i j, sym up m (subm A h h nr nc) i j = sym up m A (h + i) (h + j).
  Proof.
    intros. unfold sym. rewrite !subm_elt.
    replace (h + i <=? h + j) with (i <=? j) by lia. replace (h + j <=? h + i) with (j <=? i) by lia. reflexivity.
  Qed.
  Lemma sym_same : forall up Y A m m' i j, only_changes Y m m' -> disjoint Y A -> pos A i j -> rows A = cols A ->
    sym up m' A i j = sym up m A i j.
  Proof.
    intros up Y A m m' i j Ho Hd (Hi & Hj) E. unfold sym.
    rewrite !(oc_elt Y A m m') by (auto; split; lia). reflexivity.
  Qed.
  Lemma sym_in : forall up m A i j, intri up i j -> sym up m A i j = elt m A i j.
  Proof. intros [] m A i j H; cbn in H; unfold sym; [replace (i <=? j) with true by lia|replace (j <=? i) with true by lia]; reflexivity. Qed.
  Lemma sym_out : forall up m A i j, intri up j i -> sym up m A i j = elt m A j i.
  Proof.
    intros [] m A i j H; cbn in H; unfold sym; [destruct (i <=? j) eqn:E|destruct (j <=? i) eqn:E]; auto;
      replace i with j by lia; reflexivity.
  Qed.

  Lemma vsum_at : forall n j (f : Z -> T), 0 <= j < n ->
    vsum K n f = vsum K j f +' (f j +' vsum K (n - j - 1) (fun k => f (j + (1 + k)))).
  Proof.
    intros n j f Hj. replace n with (j + (1 + (n - j - 1))) at 1 by lia.
    rewrite !vsum_split by (auto; lia). rewrite (vsum_1 K HR), Z.add_0_r. reflexivity.
  Qed.

  (* exactly one of the two triangles is selected *)
  Definition onetri (flags : Z) (up : bool) : Prop := has flags ARMAS_UPPER = up /\ has flags ARMAS_LOWER = negb up.

  Section Symv.
    Variables (fuel : nat) (blas1min blas2min : Z) (L : Z -> bool) (flags : Z) (up : bool).
    Hypothesis Hb1 : 0 <= blas1min.
    Hypothesis Hfl : onetri flags up.

    Lemma symv_unb_wp : forall alpha Y A X m (Q : unit -> (Z -> T) -> Prop),
      vok L Y -> vok L X -> tok L up A -> disjoint Y A -> disjoint Y X -> rows A = cols A -> vlen Y = cols A -> vlen X = cols A ->
      cols A < Z.of_nat fuel ->
      (forall m', (forall q, 0 <= q < vlen Y -> velt m' Y q = velt m Y q +' alpha *' vsum K (vlen X) (fun k => sym up m A q k *' velt m X k)) ->
         only_changes Y m m' -> Q tt m') ->
      wp (symv_unb K fuel blas1min Y alpha A X flags) L m Q.
    Proof.
      intros alpha Y A X m Q OY OX OA DA DX Sq EY EX Hf HQ.
      pose proof OY as (VY & WY & LY). pose proof OX as (VX & WX & LX). pose proof OA as (WA & LA). pose proof WA as (HrA & HcA & _).
      destruct Hfl as (_ & Hlow). unfold symv_unb. rewrite Hlow. set (n := cols A) in *.
      apply wp_for1 with (I := fun j m1 => only_changes Y m m1 /\ forall q, 0 <= q < n -> velt m1 Y q =
        velt m Y q +' alpha *' vsum K (if q <? j then n else j) (fun k => sym up m A q k *' velt m X k)).
      - split; [apply oc_refl|]. intros q Hq. replace (q <? 0) with false by lia. rewrite vsum_0 by lia. ring.
      - intros j m1 Hj (Ho & Hv). cbv zeta.
        set (a01 := if negb up then subm A (j + 1) j (rows A - j - 1) 1 else subm A j (j + 1) 1 (n - j - 1)).
        assert (Oa : vok L a01 /\ vlen a01 = n - j - 1 /\ (forall a, cell a01 a -> cell A a) /\
          forall m' k, 0 <= k < n - j - 1 -> velt m' a01 k = sym up m' A j (j + 1 + k)).
        { unfold a01. clear a01. destruct up; cbn [negb].
          - split; [apply tok_row; auto; lia|]. split; [apply sub_row_len|].
            split; [intros a; apply subm_in; auto; lia|]. intros m' k Hk. rewrite sub_row_velt, sym_in by (cbn; lia). reflexivity.
          - rewrite Sq. split; [apply tok_col; auto; lia|]. split; [apply sub_col_len|].
            split; [intros a; apply subm_in; auto; lia|]. intros m' k Hk. rewrite sub_col_velt, sym_out by (cbn; lia). reflexivity. }
        destruct Oa as (Oa & La & Ca & Va). clearbody a01.
        assert (Dy : disjoint (subv Y (j + 1) (rows A - j - 1)) a01).
        { eapply disj_cells; [exact DA| |exact Ca]. intros a; apply subv_in; auto; lia. }
        wbind. apply get_at_wp; auto; try lia. wbind. apply get_at_wp; auto; try lia.
        wbind. apply get_tri_wp with (up := up); auto; [split; lia|destruct up; cbn; lia|].
        wbind. apply adot_wp; auto; [apply vok_sub; auto; lia|rewrite La, subv_len by (auto; lia); lia|lia|].
        wbind. apply set_at_wp; auto; [lia|]. intros m2 E1 E2 O2.
        apply axpby_wp; auto; [apply vok_sub; auto; lia|rewrite La, subv_len by (auto; lia); lia|].
        rewrite subv_len by (auto; lia). intros m3 E3 O3.
        assert (O23 : only_changes Y m2 m3) by (eapply oc_mono; [|exact O3]; intros a; apply subv_in; auto; lia).
        assert (O13 : only_changes Y m m3) by (eapply only_trans; [exact Ho|eapply only_trans; [exact O2|exact O23]]).
        assert (O12 : only_changes Y m m2) by (eapply only_trans; [exact Ho|exact O2]).
        split; auto. intros q Hq. destruct (Z_lt_dec q j) as [Hlt|].
        { rewrite (oc_subv Y (j + 1) (rows A - j - 1) m2 m3) by (auto; lia).
          rewrite E2, Hv by lia. replace (q <? j) with true by lia. replace (q <? j + 1) with true by lia. reflexivity. }
        destruct (Z.eq_dec q j) as [->|Hne].
        { rewrite (oc_subv Y (j + 1) (rows A - j - 1) m2 m3) by (auto; lia).
          rewrite E1, Hv by lia. replace (j <? j) with false by lia. replace (j <? j + 1) with true by lia.
          rewrite (vsum_at n j) by lia. cbv beta.
          rewrite La. rewrite (oc_velt Y X m m1) by (auto; lia). rewrite (oc_elt Y A m m1) by (auto; split; lia).
          rewrite (sym_in up m A j j) by (destruct up; cbn; lia).
          rewrite (vsum_ext K (n - j - 1) (fun k => velt m1 (subv X (j + 1) (rows A - j - 1)) k *' velt m1 a01 k)
            (fun k => sym up m A j (j + (1 + k)) *' velt m X (j + (1 + k)))); [ring|].
          intros k Hk. rewrite Va, subv_velt by (auto; lia). rewrite (oc_velt Y X m m1), (sym_same up Y A m m1) by (auto; try split; lia).
          replace (j + 1 + k) with (j + (1 + k)) by lia. ring. }
        replace (velt m3 Y q) with (velt m3 (subv Y (j + 1) (rows A - j - 1)) (q - j - 1))
          by (rewrite subv_velt by (auto; lia); f_equal; lia).
        rewrite E3, subv_velt by (auto; lia). replace (j + 1 + (q - j - 1)) with q by lia.
        rewrite E2, Hv by lia. replace (q <? j) with false by lia. replace (q <? j + 1) with false by lia.
        rewrite vsum_S by lia. rewrite Va by lia. replace (j + 1 + (q - j - 1)) with q by lia.
        rewrite (sym_same up Y A m m2) by (auto; split; lia). rewrite (oc_velt Y X m m1) by (auto; lia).
        replace (sym up m A q j) with (sym up m A j q); [ring|].
        destruct up; [rewrite sym_in, sym_out by (cbn; lia)|rewrite sym_out, sym_in by (cbn; lia)]; reflexivity.
      - intros m1 (Ho & Hv). apply HQ; auto. intros q Hq. rewrite Hv by lia.
        replace (q <? Z.max 0 n) with true by lia. rewrite EX. reflexivity.
    Qed.

    Hypothesis Hb2 : 2 <= blas2min.

    Lemma symv_recursive_wp : forall alpha f Y A X m (Q : unit -> (Z -> T) -> Prop),
      vok L Y -> vok L X -> tok L up A -> disjoint Y A -> disjoint Y X -> rows A = cols A -> vlen Y = cols A -> vlen X = cols A ->
      cols A < Z.of_nat fuel -> cols A < Z.of_nat f ->
      (forall m', (forall q, 0 <= q < vlen Y -> velt m' Y q = velt m Y q +' alpha *' vsum K (vlen X) (fun k => sym up m A q k *' velt m X k)) ->
         only_changes Y m m' -> Q tt m') ->
      wp (symv_recursive K fuel blas1min blas2min f Y alpha A X flags blas2min) L m Q.
    Proof.
      intros alpha. induction f as [|f IH]; intros Y A X m Q OY OX OA DA DX Sq EY EX Hf Hf' HQ.
      { destruct OA as ((? & ? & _) & _). lia. }
      pose proof OY as (VY & WY & LY). pose proof OX as (VX & WX & LX). pose proof OA as (WA & LA). pose proof WA as (HrA & HcA & _).
      cbn [symv_recursive]. change (armas_size Y) with (vlen Y). apply wp_if; intros E.
      { apply symv_unb_wp; auto. }
      destruct (quot2 (vlen Y) ltac:(lia)) as (Eq & _ & Hh). specialize (Hh ltac:(lia)). rewrite Eq.
      set (h := vlen Y / 2) in *. clearbody h. clear Eq. rewrite EY in *.
      set (n := cols A) in *. rewrite !vec_part_eq by (auto; lia).
      unfold mat_partition_2x2. cbn [ATL ATR ABL ABR]. rewrite Sq, EX, EY. fold n.
      set (yT := subv Y 0 h). set (yB := subv Y h (n - h)). set (xT := subv X 0 h). set (xB := subv X h (n - h)).
      set (TL := subm A 0 0 h h). set (BR := subm A h h (n - h) (n - h)).
      assert (HT : forall m1 (Q : unit -> (Z -> T) -> Prop),
        (forall m', (forall q, 0 <= q < h -> velt m' Y q = velt m1 Y q +' alpha *' vsum K h (fun k => sym up m1 A q k *' velt m1 X k)) ->
           (forall q, h <= q < n -> velt m' Y q = velt m1 Y q) -> only_changes Y m1 m' -> Q tt m') ->
        wp (symv_recursive K fuel blas1min blas2min f yT alpha TL xT flags blas2min) L m1 Q).
      { intros m1 Q1 HQ1. apply IH; try (unfold TL; cbn [cols rows armas_submatrix_unsafe armas_make]; lia).
        - apply vok_sub; auto; lia.
        - apply vok_sub; auto; lia.
        - apply tok_sub; auto; lia.
        - eapply disj_cells; [exact DA|intros a; apply subv_in; auto; lia|intros a; apply subm_in; auto; lia].
        - eapply disj_cells; [exact DX|intros a; apply subv_in; auto; lia|intros a; apply subv_in; auto; lia].
        - unfold yT. rewrite subv_len by (auto; lia). reflexivity.
        - unfold xT. rewrite subv_len by (auto; lia). reflexivity.
        - unfold yT, xT. rewrite !subv_len by (auto; lia). intros m' Ev Ho. apply HQ1.
          + intros q Hq. specialize (Ev q Hq). rewrite !subv_velt in Ev by (auto; lia). cbn [Z.add] in Ev. rewrite Ev.
            f_equal. f_equal. apply vsum_ext. intros k Hk. unfold TL. rewrite sym_sub, subv_velt by (auto; lia). reflexivity.
          + intros q Hq. apply (oc_subv Y 0 h m1 m'); auto; lia.
          + eapply oc_mono; [|exact Ho]. intros a; apply subv_in; auto; lia. }
      assert (HB : forall m1 (Q : unit -> (Z -> T) -> Prop),
        (forall m', (forall q, h <= q < n -> velt m' Y q = velt m1 Y q +' alpha *' vsum K (n - h) (fun k => sym up m1 A q (h + k) *' velt m1 X (h + k))) ->
           (forall q, 0 <= q < h -> velt m' Y q = velt m1 Y q) -> only_changes Y m1 m' -> Q tt m') ->
        wp (symv_recursive K fuel blas1min blas2min f yB alpha BR xB flags blas2min) L m1 Q).
      { intros m1 Q1 HQ1. apply IH; try (unfold BR; cbn [cols rows armas_submatrix_unsafe armas_make]; lia).
        - apply vok_sub; auto; lia.
        - apply vok_sub; auto; lia.
        - apply tok_sub; auto; lia.
        - eapply disj_cells; [exact DA|intros a; apply subv_in; auto; lia|intros a; apply subm_in; auto; lia].
        - eapply disj_cells; [exact DX|intros a; apply subv_in; auto; lia|intros a; apply subv_in; auto; lia].
        - unfold yB. rewrite subv_len by (auto; lia). reflexivity.
        - unfold xB. rewrite subv_len by (auto; lia). reflexivity.
        - unfold yB, xB. rewrite !subv_len by (auto; lia). intros m' Ev Ho. apply HQ1.
          + intros q Hq. specialize (Ev (q - h) ltac:(lia)). rewrite !subv_velt in Ev by (auto; lia).
            replace (h + (q - h)) with q in Ev by lia. rewrite Ev.
            f_equal. f_equal. apply vsum_ext. intros k Hk. unfold BR. rewrite sym_sub, subv_velt by (auto; lia).
            replace (h + (q - h)) with q by lia. reflexivity.
          + intros q Hq. apply (oc_subv Y h (n - h) m1 m'); auto; lia.
          + eapply oc_mono; [|exact Ho]. intros a; apply subv_in; auto; lia. }
      (* off-diagonal block *)
      set (R := if up then subm A 0 h h (n - h) else subm A h 0 (n - h) h).
      assert (OR : mok L R).
      { unfold R. destruct up.
        - apply tok_blk with (up := true); auto; try lia. intros; cbn; lia.
        - apply tok_blk with (up := false); auto; try lia. intros; cbn; lia. }
      assert (CR : forall a, cell R a -> cell A a) by (unfold R; destruct up; intros a; apply subm_in; auto; lia).
      assert (HM : forall fl m1 a lena b lenb (Q : unit -> (Z -> T) -> Prop), has fl ARMAS_ABSA = false ->
        0 <= a -> 0 < lena -> a + lena <= n -> 0 <= b -> 0 < lenb -> b + lenb <= n -> a = 0 /\ b = h \/ a = h /\ b = 0 ->
        gsize (has fl ARMAS_TRANS) (subv Y a lena) R (subv X b lenb) ->
        (forall i j, 0 <= i < lena -> 0 <= j < lenb -> opm (has fl ARMAS_TRANS) m1 R i j = sym up m1 A (a + i) (b + j)) ->
        (forall m', (forall q, a <= q < a + lena -> velt m' Y q = velt m1 Y q +' alpha *' vsum K lenb (fun k => sym up m1 A q (b + k) *' velt m1 X (b + k))) ->
           (forall q, 0 <= q < n -> q < a \/ a + lena <= q -> velt m' Y q = velt m1 Y q) -> only_changes Y m1 m' -> Q tt m') ->
        wp (armas_mvmult_unsafe K fuel blas2min (one K) (subv Y a lena) alpha R (subv X b lenb) fl) L m1 Q).
      { intros fl m1 a lena b lenb Q1 Hfl1 H1 H2 H3 H4 H5 H6 H7 Hg Hop HQ1.
        apply mvmult_unsafe_wp; auto.
        - rewrite subv_len by (auto; lia). lia.
        - apply vok_sub; auto; lia.
        - apply vok_sub; auto; lia.
        - eapply disj_cells; [exact DA|intros c; apply subv_in; auto; lia|exact CR].
        - eapply disj_cells; [exact DX|intros c; apply subv_in; auto; lia|intros c; apply subv_in; auto; lia].
        - unfold R. destruct up; cbn [rows armas_submatrix_unsafe armas_make]; lia.
        - unfold R. destruct up; cbn [cols armas_submatrix_unsafe armas_make]; lia.
        - rewrite !subv_len by (auto; lia). intros m' Ev Ho. apply HQ1.
          + intros q Hq. specialize (Ev (q - a) ltac:(lia)). rewrite !subv_velt in Ev by (auto; lia).
            replace (a + (q - a)) with q in Ev by lia. rewrite Ev.
            rewrite (vsum_ext K lenb _ (fun k => sym up m1 A q (b + k) *' velt m1 X (b + k))); [ring|].
            intros k Hk. rewrite Hop, subv_velt by (auto; lia). replace (a + (q - a)) with q by lia. reflexivity.
          + intros q Hq Hout. apply (oc_subv Y a lena m1 m'); auto; lia.
          + eapply oc_mono; [|exact Ho]. intros c; apply subv_in; auto; lia. }
      assert (Hrun : forall fl1 fl2, has fl1 ARMAS_ABSA = false -> has fl2 ARMAS_ABSA = false ->
        has fl1 ARMAS_TRANS = negb up -> has fl2 ARMAS_TRANS = up ->
        wp (symv_recursive K fuel blas1min blas2min f yT alpha TL xT flags blas2min ;;
            armas_mvmult_unsafe K fuel blas2min (one K) yT alpha R xB fl1 ;;
            symv_recursive K fuel blas1min blas2min f yB alpha BR xB flags blas2min ;;
            armas_mvmult_unsafe K fuel blas2min (one K) yB alpha R xT fl2) L m Q).
      { intros fl1 fl2 Ha1 Ha2 Ht1 Ht2.
        wbind. apply HT. intros m1 V1 K1 O1.
        wbind. apply HM; auto; try lia.
        { unfold gsize, R. rewrite Ht1, !subv_len by (auto; lia). destruct up; cbn [negb rows cols armas_submatrix_unsafe armas_make]; lia. }
        { intros i j Hi Hj. unfold opm, R. rewrite Ht1. destruct up; cbn [negb]; rewrite subm_elt, ?Z.add_0_l.
          - rewrite sym_in by (cbn; lia). reflexivity.
          - rewrite sym_out by (cbn; lia). reflexivity. }
        intros m2 V2 K2 O2. wbind. apply HB. intros m3 V3 K3 O3. apply HM; auto; try lia.
        { unfold gsize, R. rewrite Ht2, !subv_len by (auto; lia). destruct up; cbn [negb rows cols armas_submatrix_unsafe armas_make]; lia. }
        { intros i j Hi Hj. unfold opm, R. rewrite Ht2. destruct up; cbn [negb]; rewrite subm_elt, ?Z.add_0_l.
          - rewrite sym_out by (cbn; lia). reflexivity.
          - rewrite sym_in by (cbn; lia). reflexivity. }
        intros m4 V4 K4 O4.
        assert (P2 : only_changes Y m m2) by (eapply only_trans; [exact O1|exact O2]).
        assert (P3 : only_changes Y m m3) by (eapply only_trans; [exact P2|exact O3]).
        assert (P4 : only_changes Y m m4) by (eapply only_trans; [exact P3|exact O4]).
        assert (Hsum : forall m1 q b len, only_changes Y m m1 -> 0 <= q < n -> 0 <= b -> b + len <= n ->
          vsum K len (fun k => sym up m1 A q (b + k) *' velt m1 X (b + k)) = vsum K len (fun k => sym up m A q (b + k) *' velt m X (b + k))).
        { intros m5 q b len Ho Hq Hb Hl. apply vsum_ext. intros k Hk.
          rewrite (sym_same up Y A m m5), (oc_velt Y X m m5) by (auto; try split; lia). reflexivity. }
        apply HQ; [|exact P4]. intros q Hq.
        replace (vlen X) with (h + (n - h)) by lia. rewrite vsum_split by (auto; lia).
        destruct (Z_lt_dec q h).
        - rewrite K4, K3, V2, V1, (Hsum m1) by (auto; lia). ring.
        - rewrite V4, V3, K2, K1, (Hsum m2), (Hsum m3) by (auto; lia).
          rewrite (vsum_ext K h _ (fun k => sym up m A q k *' velt m X k)). ring.
          intros k Hk. rewrite Z.add_0_l. reflexivity. }
      destruct Hfl as (Hup & Hlo). rewrite Hup. unfold R in Hrun.
      destruct up; cbv zeta; apply (Hrun 0 ARMAS_TRANS) || apply (Hrun ARMAS_TRANS 0); reflexivity.
    Qed.

    Lemma mvmult_sym_spec : forall beta alpha y A x m,
      vok L y -> vok L x -> tok L up A -> disjoint y A -> disjoint y x -> rows A = cols A -> vlen y = cols A -> vlen x = cols A ->
      cols A < Z.of_nat fuel ->
      exists m', armas_mvmult_sym K fuel blas1min blas2min beta y alpha A x flags L m = Some (0, m') /\
        (forall q, 0 <= q < vlen y -> velt m' y q = beta *' velt m y q +' alpha *' vsum K (vlen x) (fun k => sym up m A q k *' velt m x k)) /\
        only_changes y m m'.
    Proof.
      intros beta alpha y A x m OY OX OA DA DX Sq EY EX Hf.
      assert (W : wp (armas_mvmult_sym K fuel blas1min blas2min beta y alpha A x flags) L m (fun r m' => r = 0 /\
        (forall q, 0 <= q < vlen y -> velt m' y q = beta *' velt m y q +' alpha *' vsum K (vlen x) (fun k => sym up m A q k *' velt m x k)) /\
        only_changes y m m')).
      { unfold armas_mvmult_sym. change (armas_size x) with (vlen x). change (armas_size y) with (vlen y).
        pose proof OY as (VY & WY & LY). pose proof OX as (VX & WX & LX). pose proof OA as (WA & LA). pose proof WA as (HrA & HcA & _).
        apply wp_if; intros E.
        { apply wp_ret. split; auto. split; [|apply oc_refl]. intros q Hq. exfalso. unfold armas_size in E. nia. }
        apply isvector_isvec in VX as E1. apply isvector_isvec in VY as E2. rewrite E1, E2. cbn [negb].
        replace ((cols A =? rows A) && (vlen x =? vlen y) && (vlen x =? cols A)) with true by lia. cbn [negb].
        wbind. apply scale_wp; auto. intros m1 V1 O1. wbind. apply symv_recursive_wp; auto.
        intros m2 V2 O2. apply wp_ret. split; auto. split; [|eapply only_trans; eauto].
        intros q Hq. rewrite V2, V1 by auto. f_equal. f_equal. apply vsum_ext. intros k Hk.
        rewrite (sym_same up y A m m1), (oc_velt y x m m1) by (auto; try split; lia). reflexivity. }
      destruct W as (r & m' & E & -> & H1 & H2). eauto.
    Qed.
  End Symv.

  (* ---- rank updates of one triangle ---- *)
  Definition tdom (up : bool) (A : view) (p : Z * Z) : Prop := mdom A p /\ intri up (fst p) (snd p).

  (* number of the row (upper) or column (lower) and position in it *)
  Definition lin (up : bool) (p : Z * Z) : Z := if up then fst p else snd p.
  Definition off (up : bool) (p : Z * Z) : Z := if up then snd p else fst p.
  Definition nlin (up : bool) (A : view) : Z := if up then rows A else cols A.
  Definition llin (up : bool) (A : view) : Z := if up then cols A else rows A.
  Definition line (up : bool) (A : view) (j : Z) : view :=
    if up then subm A j j 1 (cols A - j) else subm A j j (rows A - j) 1.

  Lemma tdom_lin : forall up A p, tdom up A p <-> 0 <= lin up p < nlin up A /\ lin up p <= off up p < llin up A.
  Proof. intros up A [i j]. unfold tdom, mdom, pos, lin, off, nlin, llin, intri. cbn [fst snd]. destruct up; lia. Qed.

  Lemma line_upd_wp : forall L up beta alpha A V j m (Q : unit -> (Z -> T) -> Prop),
    tok L up A -> vok L V -> disjoint A V -> llin up A <= vlen V -> 0 <= j < nlin up A ->
    (forall m', upd m (mad A) (fun p => beta *' m (mad A p) +' alpha *' m (vad V (off up p)))
       (fun p => tdom up A p /\ lin up p = j) m' -> Q tt m') ->
    wp (armas_axpby_unsafe K beta (line up A j) alpha (subv V j (llin up A - j))) L m Q.
  Proof.
    intros L up beta alpha A V j m Q OA (VV & WV & LV) DV HV Hj HQ.
    pose proof OA as (WA & LA). pose proof WA as (HrA & HcA & _).
    destruct (Z_lt_dec (llin up A - j) 0) as [Hneg|Hpos].
    { unfold armas_axpby_unsafe. apply wp_unroll4_neg.
      { unfold line, armas_size, llin in *. destruct up; cbn [rows cols armas_submatrix_unsafe armas_make]; lia. }
      apply HQ. apply upd_nil. intros p (Hp & Hl). apply tdom_lin in Hp. lia. }
    assert (OL : vok L (line up A j) /\ vlen (line up A j) = llin up A - j /\ (forall a, cell (line up A j) a -> cell A a) /\
      forall k, 0 <= k < llin up A - j -> vad (line up A j) k = mad A (if up then (j, j + k) else (j + k, j))).
    { unfold line, llin, nlin in *. destruct up.
      - split; [apply tok_row; auto; lia|]. split; [apply sub_row_len|]. split; [intros a; apply subm_in; auto; lia|].
        intros k Hk. unfold vad, vec_pos, mad. cbn -[Z.add Z.mul]. lia.
      - split; [apply tok_col; auto; lia|]. split; [apply sub_col_len|]. split; [intros a; apply subm_in; auto; lia|].
        intros k Hk. unfold vad, vec_pos, mad, armas_submatrix_unsafe, armas_make. cbn [rows cols elems step fst snd].
        destruct (rows A - j =? 1) eqn:E; cbn [fst snd]; [replace k with 0 by lia|]; lia. }
    destruct OL as ((V1 & W1 & L1) & E1 & C1 & A1).
    destruct (subv_facts L V j (llin up A - j)) as (V2 & W2 & L2 & E2 & C2); auto; try lia.
    apply axpby_unsafe_wp; auto; try lia.
    { eapply disj_cells; [exact DV|exact C1|exact C2]. }
    intros m' Hu. apply HQ. eapply upd_reindex; [| |exact Hu].
    - intros k Hk. unfold vdom in Hk. rewrite E1 in Hk. exists (if up then (j, j + k) else (j + k, j)). split; [|apply A1; lia].
      rewrite tdom_lin. unfold lin, off, nlin, llin in *. destruct up; cbn [fst snd]; lia.
    - intros p (Hp & Hl). apply tdom_lin in Hp. exists (off up p - j). unfold vdom. rewrite E1. split; [lia|].
      assert (Ep : (if up then (j, j + (off up p - j)) else (j + (off up p - j), j)) = p).
      { destruct p as [i c]. unfold lin, off in *. cbn [fst snd] in *. destruct up; f_equal; lia. }
      rewrite A1, Ep by lia. split; auto. rewrite subv_vad by (auto; lia).
      replace (j + (off up p - j)) with (off up p) by lia. ring.
  Qed.

  Lemma tdec : forall up A j p, {tdom up A p /\ lin up p = j} + {~ (tdom up A p /\ lin up p = j)}.
  Proof.
    intros up A j p. destruct (Z.eq_dec (lin up p) j); [|right; tauto].
    destruct (Z_le_dec 0 (lin up p)), (Z_lt_dec (lin up p) (nlin up A)), (Z_le_dec (lin up p) (off up p)), (Z_lt_dec (off up p) (llin up A));
      try (right; rewrite tdom_lin; lia). left. rewrite tdom_lin. lia.
  Qed.

  (* one line after the other *)
  Lemma lines_wp : forall L up A F (f : Z -> M T unit) m0 (Q : unit -> (Z -> T) -> Prop), wf A ->
    (forall j m, 0 <= j < nlin up A -> only_changes A m0 m -> (forall p, tdom up A p -> lin up p = j -> m (mad A p) = m0 (mad A p)) ->
      wp (f j) L m (fun _ m' => upd m (mad A) F (fun p => tdom up A p /\ lin up p = j) m')) ->
    (forall m', upd m0 (mad A) F (tdom up A) m' -> Q tt m') ->
    wp (for_up 0 (nlin up A) 1 f) L m0 Q.
  Proof.
    intros L up A F f m0 Q WA Hf HQ.
    assert (Hn : 0 <= nlin up A) by (destruct WA as (? & ? & _); unfold nlin; destruct up; auto).
    apply wp_for1 with (I := fun j m => upd m0 (mad A) F (fun p => tdom up A p /\ lin up p < j) m).
    - apply upd_nil. intros p (Hp & Hl). apply tdom_lin in Hp. lia.
    - intros j m Hj Hu. eapply wp_conseq; [apply Hf; auto|].
      + eapply mupd_only; [exact Hu|]. intros p (Hp & _). apply Hp.
      + intros p Hp Hl. destruct p as [i c]. apply (mupd_old _ _ _ _ _ _ _ Hu); auto; [intros q (Hq & _); apply Hq|apply Hp|].
        intros (_ & Hc). lia.
      + intros [] m' Hu'. cbv beta in Hu'. eapply upd_seq_gen with (U := mdom A); [apply mad_inj; auto| | |apply (tdec up A j)|exact Hu|exact Hu'| | |];
          cbv beta; auto; try (intros q (Hq & _); apply Hq).
        intros q. assert (lin up q < j + 1 <-> lin up q < j \/ lin up q = j) by lia. tauto.
    - intros m Hu. apply HQ. eapply upd_ext; [|exact Hu]. intros p. cbv beta. split; [tauto|]. intros Hp. split; auto.
      apply tdom_lin in Hp. lia.
  Qed.

  Section Upd.
    Variables (fuel : nat) (blas2min : Z) (L : Z -> bool) (flags : Z) (up : bool).
    Hypotheses (Hok : fok flags) (Hup : has flags ARMAS_UPPER = up).

    Lemma unb_switch : (Z.land flags (Z.lor ARMAS_UPPER ARMAS_LOWER) =? ARMAS_UPPER) = up.
    Proof.
      unfold fok in Hok. rewrite <- Hup in *. rewrite land_or. change ARMAS_UPPER with (2 ^ 1) in *. change ARMAS_LOWER with (2 ^ 0) in *.
      rewrite !land_bit, !has_bit in * by lia.
      destruct (Z.testbit flags 1), (Z.testbit flags 0); try reflexivity; discriminate.
    Qed.

    Lemma mat_x : forall A X m0 m k, disjoint A X -> vok L X -> only_changes A m0 m -> 0 <= k < vlen X -> m (vad X k) = m0 (vad X k).
    Proof. intros A X m0 m k D (V & W & _) Ho Hk. apply Ho. intros Hc. apply (D _ Hc). apply vad_cell; auto. Qed.

    Lemma update_trmv_unb_wp : forall beta alpha A X Y m (Q : unit -> (Z -> T) -> Prop),
      tok L up A -> vok L X -> vok L Y -> disjoint A X -> disjoint A Y -> vlen X = rows A -> vlen Y = cols A ->
      (forall m', upd m (mad A) (rval K A X Y beta alpha m) (tdom up A) m' -> Q tt m') ->
      wp (update_trmv_unb K beta A alpha X Y flags) L m Q.
    Proof.
      intros beta alpha A X Y m Q OA OX OY DX DY EX EY HQ. unfold update_trmv_unb. rewrite unb_switch.
      pose proof OA as (WA & LA). pose proof OX as (VX & WX & LX). pose proof OY as (VY & WY & LY).
      assert (E : eqM (if up then
           for_up 0 (rows A) 1 (fun j => dk <- armas_get_at_unsafe X j ;;
             armas_axpby_unsafe K beta (subm A j j 1 (cols A - j)) (alpha *' dk) (subv Y j (cols A - j)))
         else for_up 0 (cols A) 1 (fun j => dk <- armas_get_at_unsafe Y j ;;
             armas_axpby_unsafe K beta (subm A j j (rows A - j) 1) (alpha *' dk) (subv X j (rows A - j))))
        (for_up 0 (nlin up A) 1 (fun j => dk <- armas_get_at_unsafe (if up then X else Y) j ;;
             armas_axpby_unsafe K beta (line up A j) (alpha *' dk) (subv (if up then Y else X) j (llin up A - j))))).
      { unfold nlin, llin, line. clear. destruct up; apply eqM_refl. }
      eapply wp_eqM; [exact E|]. apply lines_wp with (F := rval K A X Y beta alpha m); auto.
      intros j m1 Hj Ho Hold. wbind.
      apply get_at_wp; try (clear - Hj OX OY EX EY; unfold nlin, vok in *; destruct up; tauto || lia).
      apply line_upd_wp; auto; try (clear - OX OY DX DY EX EY; unfold llin in *; destruct up; auto; lia).
      intros m2 Hu. eapply upd_weaken; [exact Hu|]. intros p (Hp & Hl). rewrite Hold by auto. unfold rval.
      apply tdom_lin in Hp. rewrite velt_vad.
      rewrite (mat_x A (if up then X else Y) m m1), (mat_x A (if up then Y else X) m m1);
        try (clear - Hp Hj OX OY DX DY EX EY Ho; unfold nlin, llin in *; destruct up; auto; lia).
      clear - HR' Hl. unfold lin, off in *. destruct up; rewrite <- Hl; ring.
    Qed.

    (* update of a block as update of the whole *)
    Lemma sub_reindex : forall A r c nr nc F G (S : Z * Z -> Prop) m m', 
      upd m (mad (subm A r c nr nc)) G S m' ->
      (forall q, S q -> mdom (subm A r c nr nc) q) ->
      (forall q, S q -> F (r + fst q, c + snd q) = G q) ->
      upd m (mad A) F (fun p => S (fst p - r, snd p - c)) m'.
    Proof.
      intros A r c nr nc F G S m m' Hu HS HF. eapply upd_reindex; [| |exact Hu].
      - intros [i j] Hq. exists (r + i, c + j). cbn [fst snd]. split; [|apply sub_mad].
        replace (r + i - r) with i by lia. replace (c + j - c) with j by lia. exact Hq.
      - intros [i j] Hq. cbn [fst snd] in *. exists (i - r, j - c). split; auto. rewrite sub_mad.
        specialize (HF _ Hq). cbn [fst snd] in HF.
        replace (r + (i - r)) with i in * by lia. replace (c + (j - c)) with j in * by lia. split; auto.
    Qed.

    Definition s_TL (A : view) (h : Z) (p : Z * Z) : Prop := tdom up (subm A 0 0 h h) (fst p - 0, snd p - 0).
    Definition s_BR (A : view) (h : Z) (p : Z * Z) : Prop := tdom up (subm A h h (rows A - h) (cols A - h)) (fst p - h, snd p - h).
    Definition blk (A : view) (h : Z) : view := if up then subm A 0 h h (cols A - h) else subm A h 0 (rows A - h) h.
    Definition s_blk (A : view) (h : Z) (p : Z * Z) : Prop :=
      if up then mdom (blk A h) (fst p - 0, snd p - h) else mdom (blk A h) (fst p - h, snd p - 0).

    Lemma three_wp : forall A h (F : (Z -> T) -> Z * Z -> T) c1 c2 c3 m0 (Q : unit -> (Z -> T) -> Prop), wf A -> rows A = cols A -> 0 <= h <= cols A ->
      (forall m m' p, only_changes A m m' -> tdom up A p -> m' (mad A p) = m (mad A p) -> F m' p = F m p) ->
      (forall m (Q : unit -> (Z -> T) -> Prop), (forall m', upd m (mad A) (F m) (s_TL A h) m' -> Q tt m') -> wp c1 L m Q) ->
      (forall m (Q : unit -> (Z -> T) -> Prop), (forall m', upd m (mad A) (F m) (s_blk A h) m' -> Q tt m') -> wp c2 L m Q) ->
      (forall m (Q : unit -> (Z -> T) -> Prop), (forall m', upd m (mad A) (F m) (s_BR A h) m' -> Q tt m') -> wp c3 L m Q) ->
      (forall m', upd m0 (mad A) (F m0) (tdom up A) m' -> Q tt m') ->
      wp (c1 ;; c2 ;; c3) L m0 Q.
    Proof.
      intros A h F c1 c2 c3 m0 Q WA Sq Hh HF H1 H2 H3 HQ. pose proof WA as (HrA & HcA & _).
      assert (D1 : forall i j, s_TL A h (i, j) <-> 0 <= i < h /\ 0 <= j < h /\ intri up i j).
      { intros i j. unfold s_TL, tdom, mdom, pos, intri. cbn [fst snd rows cols armas_submatrix_unsafe armas_make]. clear. destruct up; lia. }
      assert (D2 : forall i j, s_blk A h (i, j) <-> if up then 0 <= i < h /\ h <= j < cols A else h <= i < rows A /\ 0 <= j < h).
      { intros i j. unfold s_blk, blk, mdom, pos. clear. destruct up; cbn [fst snd rows cols armas_submatrix_unsafe armas_make]; lia. }
      assert (D3 : forall i j, s_BR A h (i, j) <-> h <= i < rows A /\ h <= j < cols A /\ intri up i j).
      { intros i j. unfold s_BR, tdom, mdom, pos, intri. cbn [fst snd rows cols armas_submatrix_unsafe armas_make]. clear. destruct up; lia. }
      assert (D : forall i j, tdom up A (i, j) <-> 0 <= i < rows A /\ 0 <= j < cols A /\ intri up i j).
      { intros i j. unfold tdom, mdom, pos. cbn [fst snd]. tauto. }
      assert (I1 : forall p, s_TL A h p -> tdom up A p) by (intros [i j]; rewrite D1, D; lia || (intros (? & ? & ?); repeat split; auto; lia)).
      assert (I2 : forall p, s_blk A h p -> tdom up A p).
      { intros [i j]; rewrite D2, D. unfold intri. clear - Sq Hh. destruct up; lia. }
      assert (I3 : forall p, s_BR A h p -> tdom up A p) by (intros [i j]; rewrite D3, D; intros (? & ? & ?); repeat split; auto; lia).
      assert (N12 : forall p, s_TL A h p -> s_blk A h p -> False).
      { intros [i j]. rewrite D1, D2. clear. unfold intri. destruct up; lia. }
      assert (N3 : forall p, s_TL A h p \/ s_blk A h p -> s_BR A h p -> False).
      { intros [i j]. rewrite D1, D2, D3. clear. unfold intri. destruct up; lia. }
      assert (Hcov : forall p, tdom up A p <-> (s_TL A h p \/ s_blk A h p) \/ s_BR A h p).
      { intros [i j]. rewrite D1, D2, D3, D. clear - Sq Hh. unfold intri. destruct up; lia. }
      assert (Dec : forall S : Z * Z -> Prop, (S = s_blk A h \/ S = s_BR A h) -> forall q, S q \/ ~ S q).
      { clear. intros S [-> | ->] [i j]; [unfold s_blk, blk|unfold s_BR]; unfold tdom, mdom, pos, intri; destruct up;
          cbn [fst snd rows cols armas_submatrix_unsafe armas_make]; lia. }
      assert (Hstep : forall S1 S2 m m', upd m0 (mad A) (F m0) S1 m -> upd m (mad A) (F m) S2 m' ->
        (forall p, S1 p -> tdom up A p) -> (forall p, S2 p -> tdom up A p) -> (forall p, S1 p -> S2 p -> False) ->
        upd m0 (mad A) (F m0) (fun p => S1 p \/ S2 p) m').
      { intros S1 S2 m m' U1 U2 J1 J2 Hn.
        assert (J1' : forall p, S1 p -> mdom A p) by (intros p Hp; apply J1; auto).
        assert (Hold : forall p, S2 p -> m (mad A p) = m0 (mad A p)).
        { intros [i j] Hp. apply (mupd_old _ _ _ _ _ _ _ U1); auto; [apply (J2 _ Hp)|]. intros Hc. apply (Hn _ Hc Hp). }
        assert (Oc : only_changes A m0 m) by (eapply mupd_only; eauto).
        destruct U1 as (A1 & A2), U2 as (B1 & B2). split.
        - intros p [Hp|Hp].
          + rewrite B2; [auto|]. intros q Hq E. apply (mad_inj A WA) in E; [subst; eauto|auto|apply J2; auto].
          + rewrite B1 by auto. apply HF; auto.
        - intros a Ha. rewrite B2 by (intros p Hp; apply Ha; auto). apply A2. intros p Hp; apply Ha; auto. }
      wbind. apply H1. intros m1 U1. wbind. apply H2. intros m2 U2. apply H3. intros m3 U3. apply HQ.
      assert (U12 := Hstep _ _ _ _ U1 U2 I1 I2 N12).
      assert (U123 := Hstep _ _ _ _ U12 U3 ltac:(intros p [?|?]; auto) I3 N3).
      eapply upd_ext; [|exact U123]. intros p. cbv beta. symmetry. apply Hcov.
    Qed.

    Lemma update_trmv_recursive_wp : forall beta alpha f A X Y m (Q : unit -> (Z -> T) -> Prop),
      tok L up A -> vok L X -> vok L Y -> disjoint A X -> disjoint A Y -> vlen X = rows A -> vlen Y = cols A ->
      blas2min <= 0 \/ rows A < blas2min \/ cols A < blas2min \/ 2 <= blas2min /\ rows A = cols A ->
      rows A < Z.of_nat fuel -> rows A < Z.of_nat f ->
      (forall m', upd m (mad A) (rval K A X Y beta alpha m) (tdom up A) m' -> Q tt m') ->
      wp (update_trmv_recursive K fuel blas2min f beta A alpha X Y flags blas2min) L m Q.
    Proof.
      intros beta alpha. induction f as [|f IH]; intros A X Y m Q OA OX OY DX DY EX EY Hm Hf Hf' HQ.
      { destruct OA as ((? & ? & _) & _). lia. }
      pose proof OA as (WA & LA). pose proof OX as (VX & WX & LX). pose proof OY as (VY & WY & LY). pose proof WA as (HrA & HcA & _).
      cbn [update_trmv_recursive]. apply wp_if; intros E; [apply update_trmv_unb_wp; auto|].
      assert (H2 : 2 <= blas2min /\ rows A = cols A) by lia. destruct H2 as (H2 & Sq). clear Hm.
      destruct (quot2 (rows A) ltac:(lia)) as (Eq & _ & Hh). specialize (Hh ltac:(lia)). rewrite <- Sq in EY |- *. rewrite Eq.
      set (h := rows A / 2) in *. clearbody h. clear Eq.
      rewrite !vec_part_eq by (auto; lia). unfold mat_partition_2x2. cbn [ATL ATR ABL ABR]. rewrite EX, EY. rewrite <- ?Sq.
      assert (HB : forall r c, 0 <= r <= rows A -> 0 <= c <= rows A -> forall nr nc, 0 <= nr -> 0 <= nc -> r + nr <= rows A -> c + nc <= rows A ->
        forall m q, mdom (subm A r c nr nc) q -> rval K A X Y beta alpha m (r + fst q, c + snd q) =
          rval K (subm A r c nr nc) (subv X r nr) (subv Y c nc) beta alpha m q).
      { intros r c Hr Hc nr nc H3 H4 H5 H6 m1 [i j] (Hi & Hj). unfold rval. cbn [fst snd rows cols armas_submatrix_unsafe armas_make] in *.
        rewrite sub_mad, !subv_vad by (auto; lia). reflexivity. }
      apply three_wp with (A := A) (h := h) (F := rval K A X Y beta alpha); auto; try lia.
      - intros m1 m2 p Ho Hp Ep. apply tdom_lin in Hp. unfold rval. rewrite Ep.
        rewrite (mat_x A X m1 m2), (mat_x A Y m1 m2); auto; clear - Hp EX EY Sq; unfold lin, off, nlin, llin in *; destruct up; lia.
      - intros m1 Q1 HQ1. apply IH; try (rewrite ?subv_len by (auto; lia); cbn [rows cols armas_submatrix_unsafe armas_make]; lia).
        + apply tok_sub; auto; lia.
        + apply vok_sub; auto; lia.
        + apply vok_sub; auto; lia.
        + eapply disj_cells; [exact DX|intros a; apply subm_in; auto; lia|intros a; apply subv_in; auto; lia].
        + eapply disj_cells; [exact DY|intros a; apply subm_in; auto; lia|intros a; apply subv_in; auto; lia].
        + intros m' Hu. apply HQ1. apply (sub_reindex A 0 0 h h _ _ _ _ _ Hu); [intros q Hq; apply Hq|].
          intros q (Hq & _). apply HB; auto; lia.
      - intros m1 Q1 HQ1. rewrite Hup. 
        apply wp_if; intros Eup; apply update_ger_recursive_wp; auto; try (apply subv_facts with (L := L); auto; lia);
          try (apply subm_wf; auto; lia); try (apply tok_blk with (up := up); auto; try lia; intros; rewrite Eup; cbn; lia);
          try (rewrite ?subv_len by (auto; lia); cbn [rows cols armas_submatrix_unsafe armas_make]; lia);
          try (eapply disj_cells; [exact DX|intros a; apply subm_in; auto; lia|intros a; apply subv_in; auto; lia]);
          try (eapply disj_cells; [exact DY|intros a; apply subm_in; auto; lia|intros a; apply subv_in; auto; lia]).
        + intros m' Hu. apply HQ1. unfold s_blk, blk. rewrite Eup, <- Sq.
          apply (sub_reindex A 0 h h (rows A - h) _ _ _ _ _ Hu); auto. intros q Hq. apply HB; auto; lia.
        + intros m' Hu. apply HQ1. unfold s_blk, blk. rewrite Eup.
          apply (sub_reindex A h 0 (rows A - h) h _ _ _ _ _ Hu); auto. intros q Hq. apply HB; auto; lia.
      - intros m1 Q1 HQ1. apply IH; try (rewrite ?subv_len by (auto; lia); cbn [rows cols armas_submatrix_unsafe armas_make]; lia).
        + apply tok_sub; auto; lia.
        + apply vok_sub; auto; lia.
        + apply vok_sub; auto; lia.
        + eapply disj_cells; [exact DX|intros a; apply subm_in; auto; lia|intros a; apply subv_in; auto; lia].
        + eapply disj_cells; [exact DY|intros a; apply subm_in; auto; lia|intros a; apply subv_in; auto; lia].
        + intros m' Hu. apply HQ1. unfold s_BR. rewrite <- Sq.
          apply (sub_reindex A h h (rows A - h) (rows A - h) _ _ _ _ _ Hu); [intros q Hq; apply Hq|].
          intros q (Hq & _). apply HB; auto; lia.
    Qed.

    (* ---- rank-2 update ---- *)
    Definition sval (A X Y : view) (beta alpha : T) m (p : Z * Z) : T :=
      beta *' m (mad A p) +' alpha *' (m (vad X (fst p)) *' m (vad Y (snd p)) +' m (vad Y (fst p)) *' m (vad X (snd p))).

    Lemma update_syr2_unb_wp : forall beta alpha A X Y m (Q : unit -> (Z -> T) -> Prop),
      tok L up A -> vok L X -> vok L Y -> disjoint A X -> disjoint A Y -> rows A = cols A -> vlen X = cols A -> vlen Y = cols A ->
      (forall m', upd m (mad A) (sval A X Y beta alpha m) (tdom up A) m' -> Q tt m') ->
      wp (update_syr2_unb K beta A alpha X Y flags) L m Q.
    Proof.
      intros beta alpha A X Y m Q OA OX OY DX DY Sq EX EY HQ. unfold update_syr2_unb.
      pose proof OA as (WA & LA). pose proof OX as (VX & WX & LX). pose proof OY as (VY & WY & LY).
      assert (En : nlin up A = cols A) by (unfold nlin; clear - Sq; destruct up; lia).
      assert (El : llin up A = cols A) by (unfold llin; clear - Sq; destruct up; lia).
      rewrite <- En at 1. apply lines_wp with (F := sval A X Y beta alpha m); auto.
      intros j m1 Hj Ho Hold. cbv zeta. rewrite Hup.
      replace (if up then subm A j j 1 (cols A - j) else subm A j j (cols A - j) 1) with (line up A j)
        by (unfold line; clear - Sq; destruct up; rewrite ?Sq; reflexivity).
      destruct (vok_sub L X j (cols A - j)) as (V1 & W1 & L1); auto; try lia.
      destruct (vok_sub L Y j (cols A - j)) as (V2 & W2 & L2); auto; try lia.
      wbind. apply get_at_wp; auto; [rewrite subv_len by (auto; lia); lia|].
      wbind. apply get_at_wp; auto; [rewrite subv_len by (auto; lia); lia|].
      rewrite !subv_velt by (auto; lia). rewrite Z.add_0_r.
      rewrite <- El at 1. wbind. apply line_upd_wp; auto; try lia. intros m2 U1.
      rewrite <- El. apply line_upd_wp; auto; try lia. intros m3 U2.
      assert (O2 : only_changes A m m2).
      { eapply only_trans; [exact Ho|]. eapply mupd_only; [exact U1|]. intros q (Hq & _). apply Hq. }
      eapply upd_weaken; [eapply upd_seq; [exact U1|exact U2]|].
      intros p (Hp & Hl). cbv beta. rewrite (upd_new _ _ _ _ _ p U1) by auto. rewrite Hold by auto. unfold sval.
      apply tdom_lin in Hp. rewrite !velt_vad, <- Hl.
      assert (HL : 0 <= lin up p < cols A) by lia. assert (HO : 0 <= off up p < cols A) by lia.
      rewrite !(mat_x A X m m1), !(mat_x A Y m m1), !(mat_x A Y m m2) by (auto; lia).
      clear - HR'. unfold lin, off. destruct up; ring.
    Qed.

    Hypothesis Hb2 : 2 <= blas2min.

    Lemma update_syr2_recursive_wp : forall beta alpha f A X Y m (Q : unit -> (Z -> T) -> Prop),
      tok L up A -> vok L X -> vok L Y -> disjoint A X -> disjoint A Y -> rows A = cols A -> vlen X = cols A -> vlen Y = cols A ->
      rows A < Z.of_nat fuel -> rows A < Z.of_nat f ->
      (forall m', upd m (mad A) (sval A X Y beta alpha m) (tdom up A) m' -> Q tt m') ->
      wp (update_syr2_recursive K fuel blas2min f beta A alpha X Y flags blas2min) L m Q.
    Proof.
      intros beta alpha. induction f as [|f IH]; intros A X Y m Q OA OX OY DX DY Sq EX EY Hf Hf' HQ.
      { destruct OA as ((? & ? & _) & _). lia. }
      pose proof OA as (WA & LA). pose proof OX as (VX & WX & LX). pose proof OY as (VY & WY & LY). pose proof WA as (HrA & HcA & _).
      cbn [update_syr2_recursive]. apply wp_if; intros E; [apply update_syr2_unb_wp; auto|].
      destruct (quot2 (rows A) ltac:(lia)) as (Eq & _ & Hh). specialize (Hh ltac:(lia)). rewrite <- Sq in EX, EY. rewrite Eq.
      set (h := rows A / 2) in *. clearbody h. clear Eq.
      rewrite !vec_part_eq by (auto; lia). unfold mat_partition_2x2. cbn [ATL ATR ABL ABR]. rewrite EX, EY. rewrite <- ?Sq.
      assert (HB : forall r, 0 <= r <= rows A -> forall nr, 0 <= nr -> r + nr <= rows A ->
        forall m q, mdom (subm A r r nr nr) q -> sval A X Y beta alpha m (r + fst q, r + snd q) =
          sval (subm A r r nr nr) (subv X r nr) (subv Y r nr) beta alpha m q).
      { intros r Hr nr H3 H5 m1 [i j] (Hi & Hj). unfold sval. cbn [fst snd rows cols armas_submatrix_unsafe armas_make] in *.
        rewrite sub_mad, !subv_vad by (auto; lia). reflexivity. }
      apply three_wp with (A := A) (h := h) (F := sval A X Y beta alpha); auto; try lia.
      - intros m1 m2 p Ho Hp Ep. apply tdom_lin in Hp. unfold sval. rewrite Ep.
        rewrite !(mat_x A X m1 m2), !(mat_x A Y m1 m2); auto; clear - Hp EX EY Sq; unfold lin, off, nlin, llin in *; destruct up; lia.
      - intros m1 Q1 HQ1. apply IH; try (rewrite ?subv_len by (auto; lia); cbn [rows cols armas_submatrix_unsafe armas_make]; lia).
        + apply tok_sub; auto; lia.
        + apply vok_sub; auto; lia.
        + apply vok_sub; auto; lia.
        + eapply disj_cells; [exact DX|intros a; apply subm_in; auto; lia|intros a; apply subv_in; auto; lia].
        + eapply disj_cells; [exact DY|intros a; apply subm_in; auto; lia|intros a; apply subv_in; auto; lia].
        + intros m' Hu. apply HQ1. apply (sub_reindex A 0 0 h h _ _ _ _ _ Hu); [intros q Hq; apply Hq|].
          intros q (Hq & _). apply HB; auto; lia.
      - intros m1 Q1 HQ1.
        assert (Hg : forall r c nr nc m2 be V W (Q : unit -> (Z -> T) -> Prop), 0 <= r -> 0 <= c -> 0 <= nr -> 0 <= nc -> r + nr <= rows A -> c + nc <= rows A ->
          (forall i j, r <= i < r + nr -> c <= j < c + nc -> intri up i j) ->
          vok L V -> vok L W -> vlen V = rows A -> vlen W = rows A -> disjoint A V -> disjoint A W ->
          (forall m', upd m2 (mad A) (rval K A V W be alpha m2) (fun p => mdom (subm A r c nr nc) (fst p - r, snd p - c)) m' -> Q tt m') ->
          wp (armas_mvupdate_unsafe K fuel blas2min be (subm A r c nr nc) alpha (subv V r nr) (subv W c nc)) L m2 Q).
        { intros r c nr nc m2 be V W Q2 H1 H2 H3 H4 H5 H6 Hin OV OW EV EW DV DW HQ2.
          pose proof OV as (VV & WV & LV). pose proof OW as (VW & WW & LW).
          destruct (vok_sub L V r nr) as (A1 & A2 & A3); auto; try lia. destruct (vok_sub L W c nc) as (B1 & B2 & B3); auto; try lia.
          destruct (tok_blk L up A r c nr nc) as (C1 & C2); auto; try lia.
          apply update_ger_recursive_wp; auto;
            try (rewrite ?subv_len by (auto; lia); cbn [rows cols armas_submatrix_unsafe armas_make]; lia).
          - eapply disj_cells; [exact DV|intros a; apply subm_in; auto; lia|intros a; apply subv_in; auto; lia].
          - eapply disj_cells; [exact DW|intros a; apply subm_in; auto; lia|intros a; apply subv_in; auto; lia].
          - intros m' Hu. apply HQ2. apply (sub_reindex A r c nr nc _ _ _ _ _ Hu); auto.
            intros [i j] (Hi & Hj). unfold rval. cbn [fst snd rows cols armas_submatrix_unsafe armas_make] in *.
            rewrite sub_mad, !subv_vad by (auto; lia). reflexivity. }
        assert (Hfin : forall (S : Z * Z -> Prop) V W m2 m3, (forall p, S p -> mdom A p) ->
          V = X /\ W = Y \/ V = Y /\ W = X ->
          upd m1 (mad A) (rval K A X Y beta alpha m1) S m2 -> upd m2 (mad A) (rval K A Y X (one K) alpha m2) S m3 ->
          upd m1 (mad A) (sval A X Y beta alpha m1) S m3).
        { intros S V W m2 m3 HS _ U1 U2. assert (O2 : only_changes A m1 m2) by (eapply mupd_only; eauto).
          eapply upd_weaken; [eapply upd_seq; [exact U1|exact U2]|]. intros p Hp. unfold rval at 1.
          rewrite (upd_new _ _ _ _ _ p U1) by auto. destruct (HS p Hp) as (Hp1 & Hp2).
          rewrite (mat_x A X m1 m2), (mat_x A Y m1 m2) by (auto; lia). unfold rval, sval. ring. }
        rewrite Hup. apply wp_if; intros Eup.
        + wbind. apply Hg; auto; try lia; [intros; rewrite Eup; cbn; lia|]. intros m2 U1.
          apply Hg; auto; try lia; [intros; rewrite Eup; cbn; lia|]. intros m3 U2. apply HQ1.
          unfold s_blk, blk. rewrite Eup, <- Sq. eapply Hfin; [|left; split; reflexivity|exact U1|exact U2].
          intros [i j] (Hi & Hj). cbn [fst snd rows cols armas_submatrix_unsafe armas_make] in *. split; cbn [fst snd]; lia.
        + wbind. apply Hg; auto; try lia; [intros; rewrite Eup; cbn; lia|]. intros m2 U1.
          apply Hg; auto; try lia; [intros; rewrite Eup; cbn; lia|]. intros m3 U2. apply HQ1.
          unfold s_blk, blk. rewrite Eup. eapply Hfin; [|left; split; reflexivity|exact U1|exact U2].
          intros [i j] (Hi & Hj). cbn [fst snd rows cols armas_submatrix_unsafe armas_make] in *. split; cbn [fst snd]; lia.
      - intros m1 Q1 HQ1. apply IH; try (rewrite ?subv_len by (auto; lia); cbn [rows cols armas_submatrix_unsafe armas_make]; lia).
        + apply tok_sub; auto; lia.
        + apply vok_sub; auto; lia.
        + apply vok_sub; auto; lia.
        + eapply disj_cells; [exact DX|intros a; apply subm_in; auto; lia|intros a; apply subv_in; auto; lia].
        + eapply disj_cells; [exact DY|intros a; apply subm_in; auto; lia|intros a; apply subv_in; auto; lia].
        + intros m' Hu. apply HQ1. unfold s_BR. rewrite <- Sq.
          apply (sub_reindex A h h (rows A - h) (rows A - h) _ _ _ _ _ Hu); [intros q Hq; apply Hq|].
          intros q (Hq & _). apply HB; auto; lia.
    Qed.
  End Upd.

  (* ---- the interface functions ---- *)
  Lemma tupd_result : forall up A F m m', upd m (mad A) F (tdom up A) m' ->
    (forall i j, pos A i j -> intri up i j -> elt m' A i j = F (i, j)) /\ only_changes_tri up A m m'.
  Proof.
    intros up A F m m' Hu. split.
    - intros i j Hp Hin. rewrite elt_mad. apply (upd_new _ _ _ _ _ (i, j) Hu). split; auto.
    - intros a Ha. apply Hu. intros [i j] (Hp & Hin) ->. apply Ha. exists i, j. split; auto.
  Qed.

  Lemma mvupdate_trm_spec : forall fuel blas2min L flags optflags beta alpha A x y m, fok flags ->
    ((Z.land optflags (Z.lor ARMAS_ONAIVE ARMAS_ORECURSIVE) =? ARMAS_ORECURSIVE) = true ->
      blas2min <= 0 \/ rows A < blas2min \/ cols A < blas2min \/ 2 <= blas2min /\ rows A = cols A) ->
    rows A < Z.of_nat fuel ->
    tok L (has flags ARMAS_UPPER) A -> vok L x -> vok L y -> disjoint A x -> disjoint A y -> vlen x = rows A -> vlen y = cols A ->
    exists m', armas_mvupdate_trm K fuel blas2min optflags beta A alpha x y flags L m = Some (0, m') /\
      (forall i j, pos A i j -> intri (has flags ARMAS_UPPER) i j ->
         elt m' A i j = beta *' elt m A i j +' alpha *' (velt m x i *' velt m y j)) /\
      only_changes_tri (has flags ARMAS_UPPER) A m m'.
  Proof.
    intros fuel blas2min L flags optflags beta alpha A x y m Hok Hrec Hf OA OX OY DX DY EX EY.
    assert (W : wp (armas_mvupdate_trm K fuel blas2min optflags beta A alpha x y flags) L m (fun r m' => r = 0 /\
      (forall i j, pos A i j -> intri (has flags ARMAS_UPPER) i j ->
         elt m' A i j = beta *' elt m A i j +' alpha *' (velt m x i *' velt m y j)) /\
      only_changes_tri (has flags ARMAS_UPPER) A m m')).
    { unfold armas_mvupdate_trm. change (armas_size x) with (vlen x). change (armas_size y) with (vlen y).
      pose proof OX as (VX & WX & LX). pose proof OY as (VY & WY & LY). pose proof OA as (WA & LA). pose proof WA as (HrA & HcA & _).
      apply wp_if; intros E.
      { apply wp_ret. split; auto. split; [|intros a _; reflexivity]. intros i j (Hi & Hj). exfalso. unfold armas_size in E. nia. }
      apply isvector_isvec in VX as E1. apply isvector_isvec in VY as E2. rewrite E1, E2. cbn [negb].
      replace (negb (cols A =? vlen y) || negb (rows A =? vlen x)) with false by lia.
      wbind. assert (Hfin : forall m', upd m (mad A) (rval K A x y beta alpha m) (tdom (has flags ARMAS_UPPER) A) m' ->
        wp (ret 0) L m' (fun r m' => r = 0 /\
      (forall i j, pos A i j -> intri (has flags ARMAS_UPPER) i j ->
         elt m' A i j = beta *' elt m A i j +' alpha *' (velt m x i *' velt m y j)) /\
      only_changes_tri (has flags ARMAS_UPPER) A m m')).
      { intros m' Hu. apply wp_ret. split; auto. apply tupd_result in Hu as (H1 & H2). split; [|exact H2].
        intros i j Hp Hin. rewrite H1 by auto. unfold rval. cbn [fst snd]. rewrite !velt_vad, elt_mad. reflexivity. }
      apply wp_if; intros Er.
      - apply update_trmv_recursive_wp with (up := has flags ARMAS_UPPER); auto.
      - apply update_trmv_unb_wp with (up := has flags ARMAS_UPPER); auto. }
    destruct W as (r & m' & E & -> & H1 & H2). eauto.
  Qed.

  Lemma mvupdate2_sym_spec : forall fuel blas2min L flags optflags beta alpha A x y m, fok flags ->
    2 <= blas2min \/ optflags = ARMAS_ONAIVE ->
    rows A < Z.of_nat fuel ->
    tok L (has flags ARMAS_UPPER) A -> vok L x -> vok L y -> disjoint A x -> disjoint A y ->
    rows A = cols A -> vlen x = cols A -> vlen y = cols A ->
    exists m', armas_mvupdate2_sym K fuel blas2min optflags beta A alpha x y flags L m = Some (0, m') /\
      (forall i j, pos A i j -> intri (has flags ARMAS_UPPER) i j ->
         elt m' A i j = beta *' elt m A i j +' alpha *' (velt m x i *' velt m y j +' velt m y i *' velt m x j)) /\
      only_changes_tri (has flags ARMAS_UPPER) A m m'.
  Proof.
    intros fuel blas2min L flags optflags beta alpha A x y m Hok Hmin Hf OA OX OY DX DY Sq EX EY.
    assert (W : wp (armas_mvupdate2_sym K fuel blas2min optflags beta A alpha x y flags) L m (fun r m' => r = 0 /\
      (forall i j, pos A i j -> intri (has flags ARMAS_UPPER) i j ->
         elt m' A i j = beta *' elt m A i j +' alpha *' (velt m x i *' velt m y j +' velt m y i *' velt m x j)) /\
      only_changes_tri (has flags ARMAS_UPPER) A m m')).
    { unfold armas_mvupdate2_sym. change (armas_size x) with (vlen x). change (armas_size y) with (vlen y).
      pose proof OX as (VX & WX & LX). pose proof OY as (VY & WY & LY). pose proof OA as (WA & LA). pose proof WA as (HrA & HcA & _).
      apply wp_if; intros E.
      { apply wp_ret. split; auto. split; [|intros a _; reflexivity]. intros i j (Hi & Hj). exfalso. unfold armas_size in E. nia. }
      apply isvector_isvec in VX as E1. apply isvector_isvec in VY as E2. rewrite E1, E2. cbn [negb].
      replace (negb (cols A =? rows A) || negb (vlen y =? vlen x)) with false by lia.
      wbind. assert (Hfin : forall m', upd m (mad A) (sval A x y beta alpha m) (tdom (has flags ARMAS_UPPER) A) m' ->
        wp (ret 0) L m' (fun r m' => r = 0 /\
      (forall i j, pos A i j -> intri (has flags ARMAS_UPPER) i j ->
         elt m' A i j = beta *' elt m A i j +' alpha *' (velt m x i *' velt m y j +' velt m y i *' velt m x j)) /\
      only_changes_tri (has flags ARMAS_UPPER) A m m')).
      { intros m' Hu. apply wp_ret. split; auto. apply tupd_result in Hu as (H1 & H2). split; [|exact H2].
        intros i j Hp Hin. rewrite H1 by auto. unfold sval. cbn [fst snd]. rewrite !velt_vad, elt_mad. reflexivity. }
      apply wp_if; intros Er.
      - apply update_syr2_unb_wp with (up := has flags ARMAS_UPPER); auto.
      - destruct Hmin as [Hmin| ->]; [|discriminate]. apply update_syr2_recursive_wp with (up := has flags ARMAS_UPPER); auto. }
    destruct W as (r & m' & E & -> & H1 & H2). eauto.
  Qed.
End P.
