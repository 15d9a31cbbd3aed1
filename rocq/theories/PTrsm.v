(* PTrsm.v: triangular solve with many right-hand sides. *)
From Coq Require Import ZArith Lia Ring Field Bool ZifyBool.
From Verif Require Import Mem MView SpecView PView PSub Hoare MFlags MBase MCopy PUpd PCopy
  MNum SpecNum MBlas1 PSum PBlas1 MElem PElem SpecPivot MPivot PPivot MSort PSort MBlas2 PMvec PBlas2
  PFrame SpecTrm MTrm PTrm MGemm PGemm PMatcpy PMult MTrsm.
Local Open Scope Z_scope.
Local Open Scope prog_scope.
(* equations between booleans slow the arithmetic down *)
Ltac nobool := repeat match goal with
  | H : _ = has _ _ |- _ => clear H | H : has _ _ = _ |- _ => clear H | H : xorb _ _ = _ |- _ => clear H
  | H : _ = xorb _ _ |- _ => clear H | H : @eq bool ?x _ |- _ => is_var x; clear H end.
Ltac lia := nobool; zlia.

Lemma has_lor : forall f g b, has (Z.lor f g) b = has f b || has g b.
Proof.
  intros f g b. unfold has. rewrite Z.land_lor_distr_l. set (x := Z.land f b). set (y := Z.land g b).
  destruct (x =? 0) eqn:E1, (y =? 0) eqn:E2; cbn [negb orb].
  - replace x with 0 by Lia.lia. replace y with 0 by Lia.lia. reflexivity.
  - replace x with 0 by Lia.lia. rewrite Z.lor_0_l, E2. reflexivity.
  - replace y with 0 by Lia.lia. rewrite Z.lor_0_r, E1. reflexivity.
  - destruct (Z.lor x y =? 0) eqn:E; [|reflexivity]. apply Z.eqb_eq, Z.lor_eq_0_iff in E. Lia.lia.
Qed.

Lemma trsm_switch : forall f, trsm_bits f =
  (if has f ARMAS_RIGHT then 64 else 0) + (if has f ARMAS_TRANSA then 128 else 0) +
  (if has f ARMAS_UPPER then 2 else 0) + (if has f ARMAS_LOWER then 1 else 0).
Proof.
  intros f. unfold trsm_bits. rewrite !land_or. change ARMAS_TRANSA with (2 ^ 7). change ARMAS_RIGHT with (2 ^ 6).
  change ARMAS_UPPER with (2 ^ 1). change ARMAS_LOWER with (2 ^ 0).
  rewrite !land_bit, !has_bit by Lia.lia. destruct (Z.testbit f 7), (Z.testbit f 6), (Z.testbit f 1), (Z.testbit f 0); reflexivity.
Qed.

Section P.
  Context {T : Type} (K : num T).
  Implicit Types (m : Z -> T) (L : Z -> bool).
  Local Notation "x +' y" := (add K x y) (at level 50, left associativity).
  Local Notation "x *' y" := (mul K x y) (at level 40, left associativity).
  Hypothesis HR : is_ring K.
  Hypothesis HE : eqb_ok K.
  Hypothesis HF : is_field K.
  Let HR' : ring_theory (zero K) (one K) (add K) (mul K) (sub K) (opp K) eq := HR.
  Add Ring Kring : HR'.
  Local Notation subm := armas_submatrix_unsafe.
  Local Notation minus1 := (opp K (one K)).

  (* ---- gluing the solutions of two diagonal blocks ---- *)
  Lemma glue_low : forall up un tt m A n h (x b : Z -> T), xorb up tt = false -> 0 <= h <= n ->
    (forall q, 0 <= q < h -> vsum K h (fun k => optri K up un tt m A q k *' x k) = b q) ->
    (forall q, 0 <= q < n - h -> vsum K (n - h) (fun k => optri K up un tt m A (h + q) (h + k) *' x (h + k)) =
       b (h + q) +' minus1 *' vsum K h (fun k => aij tt m A (h + q) k *' x k)) ->
    forall q, 0 <= q < n -> vsum K n (fun k => optri K up un tt m A q k *' x k) = b q.
  Proof.
    intros up un tt m A n h x b Hx Hh H1 H2 q Hq. replace n with (h + (n - h)) by lia.
    rewrite vsum_split by (auto; lia). destruct (Z_lt_dec q h) as [Hlt|Hge].
    - rewrite (vsum_zero K HR (n - h)) by (intros; rewrite (coef_low0 K) by (auto; lia); ring).
      rewrite H1 by lia. ring.
    - specialize (H2 (q - h) ltac:(lia)). replace (h + (q - h)) with q in H2 by lia. rewrite H2.
      rewrite (vsum_ext K h _ (fun k => aij tt m A q k *' x k)). ring.
      intros k Hk. rewrite (coef_low K) by (auto; lia). reflexivity.
  Qed.

  Lemma glue_up : forall up un tt m A n h (x b : Z -> T), xorb up tt = true -> 0 <= h <= n ->
    (forall q, 0 <= q < n - h -> vsum K (n - h) (fun k => optri K up un tt m A (h + q) (h + k) *' x (h + k)) = b (h + q)) ->
    (forall q, 0 <= q < h -> vsum K h (fun k => optri K up un tt m A q k *' x k) =
       b q +' minus1 *' vsum K (n - h) (fun k => aij tt m A q (h + k) *' x (h + k))) ->
    forall q, 0 <= q < n -> vsum K n (fun k => optri K up un tt m A q k *' x k) = b q.
  Proof.
    intros up un tt m A n h x b Hx Hh H1 H2 q Hq. replace n with (h + (n - h)) by lia.
    rewrite vsum_split by (auto; lia). destruct (Z_lt_dec q h) as [Hlt|Hge].
    - rewrite H2 by lia.
      rewrite (vsum_ext K (n - h) (fun k => optri K up un tt m A q (h + k) *' x (h + k)) (fun k => aij tt m A q (h + k) *' x (h + k))). ring.
      intros k Hk. rewrite (coef_up K) by (auto; lia). reflexivity.
    - rewrite (vsum_zero K HR h) by (intros; rewrite (coef_up0 K) by (auto; lia); ring).
      specialize (H1 (q - h) ltac:(lia)). replace (h + (q - h)) with q in H1 by lia. rewrite H1. ring.
  Qed.

  Lemma optri_same : forall up un tt m m' A q k, (forall i j, pos A i j -> elt m' A i j = elt m A i j) ->
    rows A = cols A -> 0 <= q < cols A -> 0 <= k < cols A -> optri K up un tt m' A q k = optri K up un tt m A q k.
  Proof.
    intros up un tt m m' A q k H E Hq Hk. unfold optri, tri. destruct tt; rewrite !H by (split; lia); reflexivity.
  Qed.

  (* ---- rows of B (left) or columns of B (right) ---- *)
  Section Side.
    Variable right : bool.
    (* the condition under which the equations are wanted; the rest holds without it *)
    Variable Gd : Prop.

    (* component q of the unknown of system c *)
    Definition bel m B q c : T := if right then elt m B c q else elt m B q c.
    Definition bn (B : view) : Z := if right then cols B else rows B.
    Definition bo (B : view) : Z := if right then rows B else cols B.
    Definition bsub (B : view) n len : view := if right then subm B 0 n (rows B) len else subm B n 0 len (cols B).

    Lemma bn_sub : forall B n len, bn (bsub B n len) = len.
    Proof. intros. unfold bn, bsub. destruct right; reflexivity. Qed.
    Lemma bo_sub : forall B n len, bo (bsub B n len) = bo B.
    Proof. intros. unfold bo, bsub. destruct right; reflexivity. Qed.
    Lemma bsub_bel : forall m B n len q c, bel m (bsub B n len) q c = bel m B (n + q) c.
    Proof. intros. unfold bel, bsub. destruct right; rewrite subm_elt, Z.add_0_l; reflexivity. Qed.
    Lemma bsub_mok : forall L B n len, mok L B -> 0 <= n -> 0 <= len -> n + len <= bn B -> mok L (bsub B n len).
    Proof.
      intros L B n len O H1 H2 H3. pose proof O as ((? & ? & ?) & _). unfold bsub, bn in *.
      destruct right; apply mok_sub; auto; lia.
    Qed.
    Lemma bsub_in : forall B n len a, wf B -> 0 <= n -> 0 <= len -> n + len <= bn B -> cell (bsub B n len) a -> cell B a.
    Proof.
      intros B n len a W H1 H2 H3. pose proof W as (? & ? & ?). unfold bsub, bn in *.
      destruct right; apply subm_in; auto; lia.
    Qed.
    Lemma bsub_disj : forall B n len n' len', wf B -> 0 <= n -> 0 <= len -> n + len <= bn B ->
      0 <= n' -> 0 <= len' -> n' + len' <= bn B -> n + len <= n' \/ n' + len' <= n -> disjoint (bsub B n len) (bsub B n' len').
    Proof.
      intros B n len n' len' W H1 H2 H3 H4 H5 H6 H7. pose proof W as (? & ? & ?). unfold bsub, bn in *.
      destruct right; apply subm_disj; auto; lia.
    Qed.
    Lemma bel_oc : forall Y m m' B q c, only_changes Y m m' -> disjoint Y B -> 0 <= q < bn B -> 0 <= c < bo B ->
      bel m' B q c = bel m B q c.
    Proof.
      intros Y m m' B q c H D Hq Hc. unfold bel, bn, bo in *. destruct right; apply (oc_elt Y B); auto; split; lia.
    Qed.
    Lemma bsub_oc : forall m m' B n len q c, wf B -> 0 <= n -> 0 <= len -> n + len <= bn B -> only_changes (bsub B n len) m m' ->
      0 <= q < bn B -> 0 <= c < bo B -> q < n \/ n + len <= q -> bel m' B q c = bel m B q c.
    Proof.
      intros m m' B n len q c W H1 H2 H3 H4 Hq Hc Hn. pose proof W as (? & ? & ?). unfold bel, bsub, bn, bo in *.
      destruct right; eapply oc_subm; try exact H4; auto; try lia; split; lia.
    Qed.
    Lemma line_velt : forall m B j c, 0 <= c < bo B -> velt m (bsub B j 1) c = bel m B j c.
    Proof.
      intros m B j c H. unfold bel, bsub, bo in *. destruct right.
      - rewrite sub_col_velt by auto. reflexivity.
      - rewrite sub_row_velt by auto. reflexivity.
    Qed.
    Lemma line_len : forall B j, vlen (bsub B j 1) = bo B.
    Proof. intros. unfold bsub, bo. destruct right; [apply sub_col_len|apply sub_row_len]. Qed.
    Lemma line_vok : forall L B j, mok L B -> 0 <= j < bn B -> vok L (bsub B j 1).
    Proof.
      intros L B j O H. pose proof O as ((? & ? & ?) & _). unfold bsub, bn in *.
      destruct right; [apply sub_col_vok|apply sub_row_vok]; auto; lia.
    Qed.
    Lemma wf_dims : forall B, wf B -> 0 <= bn B /\ 0 <= bo B.
    Proof. intros B (? & ? & ?). unfold bn, bo. destruct right; auto. Qed.

    (* ---- the two pieces of trsm_unb.c ---- *)
    Lemma scale1_wp : forall L y beta m (Q : unit -> (Z -> T) -> Prop), vok L y ->
      (forall m', (forall k, 0 <= k < vlen y -> velt m' y k = beta *' velt m y k) -> only_changes y m m' -> Q tt m') ->
      wp (armas_scale_unsafe K y beta) L m Q.
    Proof.
      intros L y beta m Q (V & W & HL) HQ. unfold armas_scale_unsafe. apply isvector_isvec in V as E2. rewrite E2.
      apply vec_modify_wp; auto; try (change (armas_size y) with (vlen y); try pose proof (vlen_nonneg y W); lia).
      intros m1 Hu1. apply HQ.
      + intros k Hk. rewrite !velt_vad, (upd_new _ _ _ _ _ k Hu1) by (change (armas_size y) with (vlen y); lia). ring.
      + eapply vupd_only; eauto.
    Qed.

    Lemma first_wp : forall L y alpha A un i m (Q : unit -> (Z -> T) -> Prop), vok L y -> mok L A -> pos A i i ->
      (Gd -> un = true \/ elt m A i i <> zero K) ->
      (forall m', (Gd -> forall c, 0 <= c < vlen y -> dii K un m A i *' velt m' y c = alpha *' velt m y c) ->
         only_changes y m m' -> Q tt m') ->
      wp (trsm_first K y alpha A un i) L m Q.
    Proof.
      intros L y alpha A un i m Q Oy (WA & LA) Hp Hd HQ. unfold trsm_first. wbind. unfold dii in HQ. destruct un.
      - apply wp_ret. apply scale_wp; auto. intros m' E O. apply HQ; auto. intros G c Hc. rewrite E by auto. ring.
      - wbind. apply get_unsafe_wp; auto. apply wp_ret.
        apply scale_wp; auto. intros m' E O. apply HQ; auto. intros G c Hc. rewrite E by auto.
        destruct (Hd G) as [?|Hd']; [discriminate|].
        transitivity ((elt m A i i *' div K alpha (elt m A i i)) *' velt m y c); [ring|].
        rewrite (div_mul K HR HF) by auto. reflexivity.
    Qed.

    Variables (fuel : nat) (blas2min : Z) (L : Z -> bool).

    Lemma step_wp : forall y alpha B0 a1 A un j fl m (Q : unit -> (Z -> T) -> Prop),
      blas2min = 0 \/ 2 <= blas2min -> vlen y < Z.of_nat fuel ->
      vok L y -> vok L a1 -> mok L B0 -> mok L A -> disjoint y B0 -> disjoint y a1 -> disjoint y A ->
      0 < rows B0 -> 0 < cols B0 -> has fl ARMAS_ABSA = false -> gsize (has fl ARMAS_TRANS) y B0 a1 -> pos A j j ->
      (Gd -> un = true \/ elt m A j j <> zero K) ->
      (forall m', (Gd -> forall c, 0 <= c < vlen y ->
          vsum K (vlen a1) (fun k => velt m a1 k *' opm (has fl ARMAS_TRANS) m B0 c k) +' dii K un m A j *' velt m' y c =
          alpha *' velt m y c) -> only_changes y m m' -> Q tt m') ->
      wp (trsm_step K fuel blas2min y alpha B0 a1 A un j fl) L m Q.
    Proof.
      intros y alpha B0 a1 A un j fl m Q Hb Hf Oy Oa OB0 OA D1 D2 D3 H1 H2 Habs Hg Hp Hd HQ.
      unfold trsm_step. wbind. apply mvmult_unsafe_wp; auto. intros m1 E1 O1.
      assert (C : forall c, vsum K (vlen a1) (fun k => velt m a1 k *' opm (has fl ARMAS_TRANS) m B0 c k) =
                            vsum K (vlen a1) (fun k => opm (has fl ARMAS_TRANS) m B0 c k *' velt m a1 k)).
      { intros c. apply vsum_ext. intros. ring. }
      unfold dii in HQ. destruct un; cbn [negb].
      - apply wp_when; [discriminate|]. intros _. apply HQ; auto.
        intros G c Hc. rewrite E1 by auto. rewrite C. ring.
      - apply wp_when; [|discriminate]. intros _. wbind.
        destruct OA as (WA & LA). apply get_unsafe_wp; auto. apply scale1_wp; auto.
        rewrite (oc_elt y A m m1) by auto.
        intros m2 E2 O2. apply HQ; [|eapply only_trans; eauto].
        intros G c Hc. destruct (Hd G) as [?|Hd']; [discriminate|]. rewrite E2 by auto. rewrite C.
        transitivity (vsum K (vlen a1) (fun k => opm (has fl ARMAS_TRANS) m B0 c k *' velt m a1 k) +'
          (elt m A j j *' div K (one K) (elt m A j j)) *' velt m1 y c); [ring|].
        rewrite (div_mul K HR HF) by auto. rewrite E1 by auto. ring.
    Qed.

    Section Unb.
      Variables (B A : view).
      Hypotheses (OB : mok L B) (OA : mok L A) (D : disjoint B A).
      Hypotheses (Sq : rows A = cols A) (En : bn B = cols A) (Hn : 0 < cols A) (Ho : 0 < bo B) (Hf : bo B < Z.of_nat fuel).
      Hypothesis Hb2 : blas2min = 0 \/ 2 <= blas2min.

      Lemma row_bsub : forall j, right = false -> armas_row_unsafe B j = bsub B j 1.
      Proof. intros j E. unfold bsub. rewrite E. unfold armas_row_unsafe, armas_submatrix_unsafe, armas_make. f_equal; lia. Qed.
      Lemma col_bsub : forall j, right = true -> armas_column_unsafe B j = bsub B j 1.
      Proof. intros j E. unfold bsub. rewrite E. unfold armas_column_unsafe, armas_submatrix_unsafe, armas_make. f_equal; lia. Qed.

      Lemma unb_wp : forall alpha flags m (Q : unit -> (Z -> T) -> Prop), fok flags -> has flags ARMAS_RIGHT = right ->
        (Gd -> fun1 flags = true \/ (forall i, 0 <= i < cols A -> elt m A i i <> zero K)) ->
        (forall m', (Gd -> forall q c, 0 <= q < cols A -> 0 <= c < bo B ->
             vsum K (cols A) (fun k => optri K (fup flags) (fun1 flags) (xorb right (ftr flags)) m A q k *' bel m' B k c) =
             alpha *' bel m B q c) ->
           only_changes B m m' -> Q tt m') ->
        wp (armas_solve_unb K fuel blas2min B alpha A flags) L m Q.
      Proof.
        intros alpha flags m Q Hok Hrt Hns HQ. unfold armas_solve_unb. cbv zeta.
        rewrite Hrt. change ARMAS_TRANSA with ARMAS_TRANS.
        rewrite !(switch4 _ flags) by auto.
        pose proof OA as (WA & LA). pose proof OB as (WB & LB). pose proof (wf_dims B WB) as (HnB & HoB).
        assert (Eun : has flags ARMAS_UNIT = fun1 flags) by reflexivity.
        set (un := fun1 flags) in *. set (up := fup flags) in *. set (tr := ftr flags) in *.
        clearbody un up tr. clear Hok.
        assert (Hdg : forall m1 i, only_changes B m m1 -> 0 <= i < cols A -> Gd -> un = true \/ elt m1 A i i <> zero K).
        { intros m1 i H1 Hi G. destruct (Hns G) as [?|Hns']; auto. right. rewrite (oc_elt B A m m1) by (auto; split; lia). auto. }
        assert (Hin : forall i a, 0 <= i < cols A -> cell (bsub B i 1) a -> cell B a).
        { intros i a Hi. apply bsub_in; auto; lia. }
        assert (Hsame : forall i m1 m2 q c, 0 <= i < cols A -> only_changes (bsub B i 1) m1 m2 -> 0 <= q < cols A ->
          0 <= c < bo B -> q <> i -> bel m2 B q c = bel m1 B q c).
        { intros i m1 m2 q c Hi Hoc Hq Hc Hne. eapply bsub_oc with (n := i) (len := 1); eauto; lia. }
        assert (Hfirst : forall i (Q : unit -> (Z -> T) -> Prop), 0 <= i < cols A ->
          (forall m', (Gd -> forall c, 0 <= c < bo B -> dii K un m A i *' bel m' B i c = alpha *' bel m B i c) ->
            (forall q c, 0 <= q < cols A -> 0 <= c < bo B -> q <> i -> bel m' B q c = bel m B q c) ->
            only_changes B m m' -> Q tt m') ->
          wp (trsm_first K (bsub B i 1) alpha A un i) L m Q).
        { intros i Q' Hi HQ'. apply first_wp; auto.
          - apply line_vok; auto; lia.
          - split; lia.
          - apply Hdg; auto. apply oc_refl.
          - intros m1 E1 O1. rewrite line_len in E1. apply HQ'.
            + intros G c Hc. rewrite <- !line_velt by auto. auto.
            + intros q c Hq Hc Hne. apply (Hsame i m m1); auto.
            + eapply oc_mono; [|exact O1]. intros a. apply Hin; auto. }
        assert (Helem : forall m1 i a1 n len fl (a : Z -> T) (Q : unit -> (Z -> T) -> Prop), 0 <= i < cols A -> only_changes B m m1 ->
          (forall c, 0 <= c < bo B -> bel m1 B i c = bel m B i c) ->
          vok L a1 -> vlen a1 = len -> (forall x, cell a1 x -> cell A x) -> 0 <= n -> 0 < len -> n + len <= cols A ->
          i < n \/ n + len <= i -> has fl ARMAS_ABSA = false -> has fl ARMAS_TRANS = negb right ->
          (forall k, 0 <= k < len -> velt m1 a1 k = a k) ->
          (forall m2, (Gd -> forall c, 0 <= c < bo B ->
              vsum K len (fun k => a k *' bel m1 B (n + k) c) +' dii K un m A i *' bel m2 B i c = alpha *' bel m B i c) ->
            (forall q c, 0 <= q < cols A -> 0 <= c < bo B -> q <> i -> bel m2 B q c = bel m1 B q c) ->
            only_changes B m m2 -> Q tt m2) ->
          wp (trsm_step K fuel blas2min (bsub B i 1) alpha (bsub B n len) a1 A un i fl) L m1 Q).
        { intros m1 i a1 n len fl a Q' Hi Ho1 Ei Oa El Ina Hn' Hl Hb Hout Habs Htr Ha HQ'.
          assert (V1 : vok L (bsub B i 1)) by (apply line_vok; auto; lia).
          assert (V2 : mok L (bsub B n len)) by (apply bsub_mok; auto; lia).
          assert (D1 : disjoint (bsub B i 1) A) by (intros x Hx; apply D; apply (Hin i); auto).
          apply step_wp; auto.
          - rewrite line_len. auto.
          - apply bsub_disj; auto; lia.
          - intros x Hx Hx'. apply (D1 x); auto.
          - unfold bsub, bo in *. destruct right; cbn; lia.
          - unfold bsub, bo in *. destruct right; cbn; lia.
          - rewrite Htr. unfold gsize. rewrite line_len, El. unfold bsub, bo. destruct right; cbn; auto.
          - split; lia.
          - intros m2 E2 O2. rewrite line_len in E2.
            assert (Edd : dii K un m1 A i = dii K un m A i).
            { unfold dii. destruct un; auto. apply (oc_elt B A); auto. split; lia. }
            apply HQ'.
            + intros G c Hc. specialize (E2 G c Hc). rewrite El, !line_velt, Ei, Edd in E2 by auto. rewrite <- E2.
              f_equal. apply vsum_ext. intros k Hk. rewrite Ha by auto. f_equal.
              rewrite <- (bsub_bel m1 B n len). rewrite Htr. unfold bel, opm. destruct right; reflexivity.
            + intros q c Hq Hc Hne. apply (Hsame i m1 m2); auto.
            + eapply only_trans; [exact Ho1|]. eapply oc_mono; [|exact O2]. intros x. apply Hin; auto. }
        set (tt' := xorb right tr) in *.
        assert (Hlo : forall (f : Z -> M T unit), xorb up tt' = false ->
          (forall i m1 (Q : unit -> (Z -> T) -> Prop), 1 <= i < cols A -> only_changes B m m1 ->
            (forall c, 0 <= c < bo B -> bel m1 B i c = bel m B i c) ->
            (forall m2, (Gd -> forall c, 0 <= c < bo B ->
                 vsum K i (fun k => aij tt' m A i (0 + k) *' bel m1 B (0 + k) c) +' dii K un m A i *' bel m2 B i c = alpha *' bel m B i c) ->
               (forall q c, 0 <= q < cols A -> 0 <= c < bo B -> q <> i -> bel m2 B q c = bel m1 B q c) ->
               only_changes B m m2 -> Q tt m2) ->
            wp (f i) L m1 Q) ->
          wp (trsm_first K (bsub B 0 1) alpha A un 0 ;; for_up 1 (cols A) 1 f) L m Q).
        { intros f Hx Hbody. wbind. apply Hfirst; [lia|]. intros m1 E1 E1' O1.
          apply wp_for1 with (I := fun i m2 => only_changes B m m2 /\
            (forall q c, i <= q < cols A -> 0 <= c < bo B -> bel m2 B q c = bel m B q c) /\
            (Gd -> forall q c, 0 <= q < i -> q < cols A -> 0 <= c < bo B ->
               vsum K q (fun k => aij tt' m A q k *' bel m2 B k c) +' dii K un m A q *' bel m2 B q c = alpha *' bel m B q c)).
          - split; auto. split; [intros; apply E1'; auto; lia|]. intros G q c Hq Hq' Hc. replace q with 0 by lia.
            rewrite vsum_0, E1 by (auto; lia). ring.
          - intros i m2 Hi (H1 & H2 & H3). apply Hbody; auto; [intros; apply H2; auto; lia|]. intros m3 E3 E3' O3.
            split; auto. split; [intros; rewrite E3' by (auto; lia); apply H2; auto; lia|].
            intros G q c Hq Hq' Hc. destruct (Z.eq_dec q i) as [->|].
            + rewrite <- E3 by auto. f_equal. apply vsum_ext. intros k Hk. rewrite E3' by (auto; lia). reflexivity.
            + rewrite E3' by (auto; lia). rewrite <- (H3 G q c) by (auto; lia). f_equal. apply vsum_ext. intros k Hk.
              rewrite E3' by (auto; lia). reflexivity.
          - intros m2 (H1 & H2 & H3). apply HQ; auto. intros G q c Hq Hc. rewrite (sum_low K HR) by auto. apply H3; auto; lia. }
        assert (Hhi : forall (f : Z -> M T unit), xorb up tt' = true ->
          (forall i m1 (Q : unit -> (Z -> T) -> Prop), 0 <= i < cols A - 1 -> only_changes B m m1 ->
            (forall c, 0 <= c < bo B -> bel m1 B i c = bel m B i c) ->
            (forall m2, (Gd -> forall c, 0 <= c < bo B ->
                 vsum K (cols A - 1 - i) (fun k => aij tt' m A i (i + 1 + k) *' bel m1 B (i + 1 + k) c) +'
                 dii K un m A i *' bel m2 B i c = alpha *' bel m B i c) ->
               (forall q c, 0 <= q < cols A -> 0 <= c < bo B -> q <> i -> bel m2 B q c = bel m1 B q c) ->
               only_changes B m m2 -> Q tt m2) ->
            wp (f i) L m1 Q) ->
          wp (trsm_first K (bsub B (cols A - 1) 1) alpha A un (cols A - 1) ;; for_down (cols A - 2) 0 f) L m Q).
        { intros f Hx Hbody. wbind. apply Hfirst; [lia|]. intros m1 E1 E1' O1.
          apply wp_for_down with (I := fun i m2 => only_changes B m m2 /\
            (forall q c, 0 <= q <= i -> 0 <= c < bo B -> bel m2 B q c = bel m B q c) /\
            (Gd -> forall q c, i < q < cols A -> 0 <= c < bo B ->
               vsum K (cols A - 1 - q) (fun k => aij tt' m A q (q + 1 + k) *' bel m2 B (q + 1 + k) c) +'
               dii K un m A q *' bel m2 B q c = alpha *' bel m B q c)).
          - split; auto. split; [intros; apply E1'; auto; lia|]. intros G q c Hq Hc. replace q with (cols A - 1) by lia.
            rewrite vsum_0, E1 by (auto; lia). ring.
          - intros i m2 Hi (H1 & H2 & H3). apply Hbody; auto; [lia|intros; apply H2; auto; lia|]. intros m3 E3 E3' O3.
            split; auto. split; [intros; rewrite E3' by (auto; lia); apply H2; auto; lia|].
            intros G q c Hq Hc. destruct (Z.eq_dec q i) as [->|].
            + rewrite <- E3 by auto. f_equal. apply vsum_ext. intros k Hk. rewrite E3' by (auto; lia). reflexivity.
            + rewrite E3' by (auto; lia). rewrite <- (H3 G q c) by (auto; lia). f_equal. apply vsum_ext. intros k Hk.
              rewrite E3' by (auto; lia). reflexivity.
          - intros m2 (H1 & H2 & H3). apply HQ; auto. intros G q c Hq Hc. rewrite (sum_up K HR) by auto. apply H3; auto; lia. }
        assert (Hrow : forall (m1 : Z -> T) i c n k, only_changes B m m1 -> 0 <= i < cols A -> 0 <= c -> c + n <= cols A -> 0 <= k < n ->
          velt m1 (subm A i c 1 n) k = aij false m A i (c + k)).
        { intros m1 i c n k Ho1 Hi Hc Hcn Hk. rewrite sub_row_velt by auto. unfold aij.
          apply (oc_elt B A); auto. split; lia. }
        assert (Hcol : forall (m1 : Z -> T) i c n k, only_changes B m m1 -> 0 <= i < cols A -> 0 <= c -> c + n <= cols A -> 0 <= k < n ->
          velt m1 (subm A c i n 1) k = aij true m A i (c + k)).
        { intros m1 i c n k Ho1 Hi Hc Hcn Hk. rewrite sub_col_velt by auto. unfold aij.
          apply (oc_elt B A); auto. split; lia. }
        clear HQ Hfirst Hdg Hns Hsame Hin.
        assert (Plo : forall row fl (f : Z -> M T unit), row = negb tt' -> has fl ARMAS_ABSA = false -> has fl ARMAS_TRANS = negb right ->
          xorb up tt' = false ->
          (forall j, f j = trsm_step K fuel blas2min (bsub B j 1) alpha (bsub B 0 j) (if row then subm A j 0 1 j else subm A 0 j j 1) A un j fl) ->
          wp (trsm_first K (bsub B 0 1) alpha A un 0 ;; for_up 1 (cols A) 1 f) L m Q).
        { intros row fl f Er Habs Htr Hx Ef. apply Hlo; auto. intros i m1 Q' Hi Ho1 Ei HQ'. rewrite Ef.
          apply Helem with (a := fun k => aij tt' m A i (0 + k)); auto; try lia.
          - destruct row; [apply sub_row_vok|apply sub_col_vok]; auto; lia.
          - destruct row; [apply sub_row_len|apply sub_col_len].
          - intros x. destruct row; apply subm_in; auto; lia.
          - intros k Hk. subst row. destruct tt'; cbn [negb]; [apply Hcol|apply Hrow]; auto; lia. }
        assert (Phi : forall row fl (f : Z -> M T unit), row = negb tt' -> has fl ARMAS_ABSA = false -> has fl ARMAS_TRANS = negb right ->
          xorb up tt' = true ->
          (forall j, f j = trsm_step K fuel blas2min (bsub B j 1) alpha (bsub B (j + 1) (cols A - 1 - j))
             (if row then subm A j (j + 1) 1 (cols A - 1 - j) else subm A (j + 1) j (cols A - 1 - j) 1) A un j fl) ->
          wp (trsm_first K (bsub B (cols A - 1) 1) alpha A un (cols A - 1) ;; for_down (cols A - 2) 0 f) L m Q).
        { intros row fl f Er Habs Htr Hx Ef. apply Hhi; auto. intros i m1 Q' Hi Ho1 Ei HQ'. rewrite Ef.
          apply Helem with (a := fun k => aij tt' m A i (i + 1 + k)); auto; try lia.
          - destruct row; [apply sub_row_vok|apply sub_col_vok]; auto; lia.
          - destruct row; [apply sub_row_len|apply sub_col_len].
          - intros x. destruct row; apply subm_in; auto; lia.
          - intros k Hk. subst row. destruct tt'; cbn [negb]; [apply Hcol|apply Hrow]; auto; lia. }
        clear Hlo Hhi Helem Hrow Hcol.
        destruct right eqn:Er.
        - destruct up eqn:Eup, tr eqn:Etr; subst tt'.
          + unfold solve_unblk_rut. rewrite Eun. cbv zeta. rewrite col_bsub by auto.
            apply (Phi true 0); auto. intros j. rewrite col_bsub by auto. unfold bsub. rewrite Er. reflexivity.
          + unfold solve_unblk_ru. rewrite Eun. cbv zeta. rewrite col_bsub by auto.
            apply (Plo false 0); auto. intros j. rewrite col_bsub by auto. unfold bsub. rewrite Er. reflexivity.
          + unfold solve_unblk_rlt. rewrite Eun. cbv zeta. rewrite col_bsub by auto.
            apply (Plo true 0); auto. intros j. rewrite col_bsub by auto. unfold bsub. rewrite Er. reflexivity.
          + unfold solve_unblk_rl. rewrite Eun. cbv zeta. rewrite col_bsub by auto.
            apply (Phi false 0); auto. intros j. rewrite col_bsub by auto. unfold bsub. rewrite Er. reflexivity.
        - destruct up eqn:Eup, tr eqn:Etr; subst tt'.
          + unfold solve_unblk_lut. rewrite Eun. cbv zeta. rewrite row_bsub by auto.
            apply (Plo false ARMAS_TRANS); auto. intros j. rewrite row_bsub by auto. unfold bsub. rewrite Er. reflexivity.
          + unfold solve_unblk_lu. rewrite Eun. cbv zeta. rewrite row_bsub by auto.
            apply (Phi true ARMAS_TRANS); auto. intros j. rewrite row_bsub by auto.
            replace (rows B - 1 - j) with (cols A - 1 - j) by (unfold bn in En; rewrite Er in En; lia). unfold bsub. rewrite Er. reflexivity.
          + unfold solve_unblk_llt. rewrite Eun. cbv zeta. rewrite row_bsub by auto.
            apply (Phi false ARMAS_TRANS); auto. intros j. rewrite row_bsub by auto. unfold bsub. rewrite Er. reflexivity.
          + unfold solve_unblk_ll. rewrite Eun. cbv zeta. rewrite row_bsub by auto.
            apply (Plo true ARMAS_TRANS); auto. intros j. rewrite row_bsub by auto. unfold bsub. rewrite Er. reflexivity.
      Qed.
    End Unb.

    (* ---- recursive and blocked versions ---- *)
    Section Rec.
      Variable ch : cache.
      Let Av := mkview (Acpy ch) (ab_step ch) (KB ch) (MB ch).
      Let Bv := mkview (Bcpy ch) (ab_step ch) (KB ch) (NB ch).
      Hypotheses (OK : blocks_ok L ch) (Hrb : 0 < rb ch <= MB ch) (Hb2 : 2 <= blas2min).
      Variables (up un tt' : bool).

      Definition away (V : view) : Prop := disjoint Av V /\ disjoint Bv V.
      Lemma away_in : forall V W, (forall a, cell W a -> cell V a) -> away V -> away W.
      Proof. intros V W H (H1 & H2). split; intros a Ha Hb; [apply (H1 a)|apply (H2 a)]; auto. Qed.

      Definition chg (B : view) m m' : Prop := outside3 B Av Bv m m'.
      Lemma chg_sub : forall B B' m m', (forall a, cell B' a -> cell B a) -> chg B' m m' -> chg B m m'.
      Proof. intros B B' m m' H H1 a Ha. apply H1. auto. Qed.
      Lemma chg_elt : forall B A m m' i j, chg B m m' -> disjoint B A -> away A -> pos A i j -> elt m' A i j = elt m A i j.
      Proof. intros B A m m' i j H D (H1 & H2) Hp. eapply out3_elt; eauto. Qed.
      Lemma chg_bel : forall B n len m m' q c, wf B -> away B -> 0 <= n -> 0 <= len -> n + len <= bn B ->
        chg (bsub B n len) m m' -> 0 <= q < bn B -> 0 <= c < bo B -> q < n \/ n + len <= q -> bel m' B q c = bel m B q c.
      Proof.
        intros B n len m m' q c W HA H1 H2 H3 H4 Hq Hc Hn.
        rewrite <- (Z.add_0_r q). rewrite <- !(bsub_bel _ B q 1).
        assert (D : disjoint (bsub B n len) (bsub B q 1)) by (apply bsub_disj; auto; lia).
        assert (AW : away (bsub B q 1)).
        { eapply away_in; [|exact HA]. intros a. apply bsub_in; auto; lia. }
        unfold bel, bsub, bo in *. destruct right; eapply chg_elt; try exact H4; auto; split; cbn; lia.
      Qed.

      Definition okk (B A : view) : Prop :=
        mok L B /\ mok L A /\ disjoint B A /\ away B /\ away A /\ rows A = cols A /\ bn B = cols A /\ 0 < cols A /\ 0 < bo B.

      Lemma okk_sub : forall B A n len, okk B A -> 0 <= n -> 0 < len -> n + len <= cols A ->
        okk (bsub B n len) (subm A n n len len).
      Proof.
        intros B A n len (OB & OA & D & AB & AA & Sq & En & Hn & Ho) H1 H2 H3.
        pose proof OB as (WB & _). pose proof OA as (WA & _).
        assert (I1 : forall a, cell (bsub B n len) a -> cell B a) by (intros a; apply bsub_in; auto; lia).
        assert (I2 : forall a, cell (subm A n n len len) a -> cell A a) by (intros a; apply subm_in; auto; lia).
        split; [apply bsub_mok; auto; lia|]. split; [apply mok_sub; auto; lia|].
        split; [intros a Ha Hb; apply (D a); auto|]. split; [eapply away_in; eauto|]. split; [eapply away_in; eauto|].
        split; [reflexivity|]. split; [apply bn_sub|]. split; [exact H2|]. rewrite bo_sub. exact Ho.
      Qed.

      Definition diag m A : Prop := un = true \/ (forall i, 0 <= i < cols A -> elt m A i i <> zero K).
      Lemma diag_sub : forall m m' A n len, (forall i j, pos A i j -> elt m' A i j = elt m A i j) -> rows A = cols A ->
        0 <= n -> n + len <= cols A -> diag m A -> diag m' (subm A n n len len).
      Proof.
        intros m m' A n len H Sq H1 H2 [H3|H3]; [left; auto|right]. intros i Hi. cbn in Hi. rewrite subm_elt, H by (split; lia).
        apply H3. lia.
      Qed.

      (* what solving with the triangular A does to B *)
      Definition post alpha m A B m' : Prop :=
        (Gd -> forall q c, 0 <= q < cols A -> 0 <= c < bo B ->
           vsum K (cols A) (fun k => optri K up un tt' m A q k *' bel m' B k c) = alpha *' bel m B q c) /\ chg B m m'.
      Definition spec (prog : M T unit) alpha B A : Prop :=
        forall m (Q : unit -> (Z -> T) -> Prop), (Gd -> diag m A) -> (forall m', post alpha m A B m' -> Q tt m') -> wp prog L m Q.

      (* the flags of the kernel call for a coefficient block *)
      Definition kflags (fl : Z) : Prop :=
        has fl absflags = false /\
        (if right then has fl transA = false /\ has fl transB = negb tt' else has fl transA = tt' /\ has fl transB = false).
      Definition cblock A n1 l1 n0 l0 : view := if tt' then subm A n0 n1 l0 l1 else subm A n1 n0 l1 l0.

      Section Upd.
        Variables (B A : view) (n1 l1 n0 l0 fl : Z).
        Hypotheses (Hok : okk B A) (H1 : 0 <= n1) (H2 : 0 <= l1) (H3 : n1 + l1 <= cols A) (H4 : 0 <= n0) (H5 : 0 <= l0)
          (H6 : n0 + l0 <= cols A) (H7 : n1 + l1 <= n0 \/ n0 + l0 <= n1) (Hfl : kflags fl).

        Definition updated beta m m' : Prop :=
          (forall q c, 0 <= q < l1 -> 0 <= c < bo B -> bel m' B (n1 + q) c = beta *' bel m B (n1 + q) c +'
             minus1 *' vsum K l0 (fun k => aij tt' m A (n1 + q) (n0 + k) *' bel m B (n0 + k) c)) /\
          (forall q c, 0 <= q < cols A -> 0 <= c < bo B -> q < n1 \/ n1 + l1 <= q -> bel m' B q c = bel m B q c) /\ chg B m m'.

        Lemma upd_facts : mok L (bsub B n1 l1) /\ mok L (bsub B n0 l0) /\ mok L (cblock A n1 l1 n0 l0) /\
          disjoint (bsub B n1 l1) (bsub B n0 l0) /\ disjoint (bsub B n1 l1) (cblock A n1 l1 n0 l0) /\
          away (bsub B n1 l1) /\ away (bsub B n0 l0) /\ away (cblock A n1 l1 n0 l0).
        Proof.
          destruct Hok as (OB & OA & D & AB & AA & Sq & En & Hn & Ho). pose proof OB as (WB & _). pose proof OA as (WA & _).
          assert (I1 : forall a, cell (bsub B n1 l1) a -> cell B a) by (intros a; apply bsub_in; auto; lia).
          assert (I0 : forall a, cell (bsub B n0 l0) a -> cell B a) by (intros a; apply bsub_in; auto; lia).
          assert (I2 : forall a, cell (cblock A n1 l1 n0 l0) a -> cell A a).
          { intros a. unfold cblock. destruct tt'; apply subm_in; auto; lia. }
          split; [apply bsub_mok; auto; lia|]. split; [apply bsub_mok; auto; lia|].
          split; [unfold cblock; destruct tt'; apply mok_sub; auto; lia|].
          split; [apply bsub_disj; auto; lia|]. split; [intros a Ha Hb; apply (D a); auto|].
          repeat split; intros a Ha Hb; first [solve [apply (proj1 AB a); auto]|solve [apply (proj2 AB a); auto]|solve [apply (proj1 AA a); auto]|solve [apply (proj2 AA a); auto]].
        Qed.

        Lemma upd_post : forall beta m m',
          (forall i j, pos (bsub B n1 l1) i j -> elt m' (bsub B n1 l1) i j = elt m (bsub B n1 l1) i j *' beta +'
             (if right then opdot K (bsub B n0 l0) (cblock A n1 l1 n0 l0) fl m l0 i j
              else opdot K (cblock A n1 l1 n0 l0) (bsub B n0 l0) fl m l0 i j) *' minus1) ->
          outside3 (bsub B n1 l1) Av Bv m m' -> updated beta m m'.
        Proof.
          intros beta m m' V O.
          pose proof Hok as (OB & OA & D & AB & AA & Sq & En & Hn & Ho). pose proof OB as (WB & _).
          split; [|split].
          - intros q c Hq Hc. rewrite <- !(bsub_bel _ B n1 l1 q c).
            assert (E : bel m' (bsub B n1 l1) q c = bel m (bsub B n1 l1) q c *' beta +'
              vsum K l0 (fun k => aij tt' m A (n1 + q) (n0 + k) *' bel m B (n0 + k) c) *' minus1); [|rewrite E; ring].
            assert (Hp : if right then pos (bsub B n1 l1) c q else pos (bsub B n1 l1) q c).
            { unfold bsub, bo in *. destruct right; split; cbn; lia. }
            destruct Hfl as (Fa & Ft).
            unfold bel at 1 2. unfold opdot, opA, opB, absf in V. rewrite Fa in V. clear Fa O H7 Hfl.
            destruct right eqn:Er; rewrite V by auto; f_equal; f_equal; apply vsum_ext; intros k Hk.
            + destruct Ft as (-> & ->). unfold bel, cblock, aij, bsub. rewrite Er.
              destruct tt'; cbn [negb]; rewrite !subm_elt, ?Z.add_0_l; ring.
            + destruct Ft as (-> & ->). unfold bel, cblock, aij, bsub. rewrite Er.
              destruct tt'; cbn [negb]; rewrite !subm_elt, ?Z.add_0_l; ring.
          - intros q c Hq Hc Hout. apply (chg_bel B n1 l1); auto; lia.
          - eapply chg_sub; [|exact O]. intros a. apply bsub_in; auto; lia.
        Qed.

        Lemma upd_nc_wp : forall m (Q : unit -> (Z -> T) -> Prop), (forall m', updated (one K) m m' -> Q tt m') ->
          wp (if right then armas_mult_kernel_nc K (bsub B n1 l1) minus1 (bsub B n0 l0) (cblock A n1 l1 n0 l0) fl ch
              else armas_mult_kernel_nc K (bsub B n1 l1) minus1 (cblock A n1 l1 n0 l0) (bsub B n0 l0) fl ch) L m Q.
        Proof.
          intros m Q HQ. destruct upd_facts as (F1 & F2 & F3 & F4 & F5 & (F6 & F6') & (F7 & F7') & (F8 & F8')).
          pose proof (upd_post (one K) m) as UP. pose proof Hfl as (_ & Ft).
          assert (SH : if right then shapeA (bsub B n1 l1) (bsub B n0 l0) fl l0 /\ shapeB (bsub B n1 l1) (cblock A n1 l1 n0 l0) fl l0
                       else shapeA (bsub B n1 l1) (cblock A n1 l1 n0 l0) fl l0 /\ shapeB (bsub B n1 l1) (bsub B n0 l0) fl l0).
          { unfold shapeA, shapeB, bsub, cblock. destruct right, Ft as (-> & ->), tt'; cbn; auto. }
          destruct right; destruct SH as (S1 & S2).
          - apply (kernel_nc_wp K HR L _ _ _ minus1 fl l0 ch); auto; try lia.
            intros m' V O. apply HQ, UP; auto. intros i j Hp. rewrite V by auto. ring.
          - apply (kernel_nc_wp K HR L _ _ _ minus1 fl l0 ch); auto; try lia.
            intros m' V O. apply HQ, UP; auto. intros i j Hp. rewrite V by auto. ring.
        Qed.

        Lemma upd_wp : forall beta m (Q : unit -> (Z -> T) -> Prop), (forall m', updated beta m m' -> Q tt m') ->
          wp (if right then armas_mult_kernel K beta (bsub B n1 l1) minus1 (bsub B n0 l0) (cblock A n1 l1 n0 l0) fl ch
              else armas_mult_kernel K beta (bsub B n1 l1) minus1 (cblock A n1 l1 n0 l0) (bsub B n0 l0) fl ch) L m Q.
        Proof.
          intros beta m Q HQ. destruct upd_facts as (F1 & F2 & F3 & F4 & F5 & (F6 & F6') & (F7 & F7') & (F8 & F8')).
          pose proof (upd_post beta m) as UP. pose proof Hfl as (_ & Ft).
          assert (SH : if right then shapeA (bsub B n1 l1) (bsub B n0 l0) fl l0 /\ shapeB (bsub B n1 l1) (cblock A n1 l1 n0 l0) fl l0
                       else shapeA (bsub B n1 l1) (cblock A n1 l1 n0 l0) fl l0 /\ shapeB (bsub B n1 l1) (bsub B n0 l0) fl l0).
          { unfold shapeA, shapeB, bsub, cblock. destruct right, Ft as (-> & ->), tt'; cbn; auto. }
          destruct right; destruct SH as (S1 & S2).
          - apply (kernel_wp K HR L _ _ _ minus1 fl l0 ch); auto; try lia.
          - apply (kernel_wp K HR L _ _ _ minus1 fl l0 ch); auto; try lia.
        Qed.
      End Upd.

      (* rows n1.. solved after rows n0.. : the part of the state that matters *)
      Lemma seq_low : forall B A n1 l1 beta alpha m0 m (p1 p2 : M T unit) (Q : unit -> (Z -> T) -> Prop),
        okk B A -> xorb up tt' = false -> 0 <= n1 -> 0 < l1 -> n1 + l1 <= cols A -> (Gd -> diag m0 A) ->
        chg B m0 m ->
        (Gd -> forall q c, 0 <= q < n1 -> 0 <= c < bo B -> vsum K n1 (fun k => optri K up un tt' m0 A q k *' bel m B k c) = alpha *' bel m0 B q c) ->
        (forall q c, n1 <= q < cols A -> 0 <= c < bo B -> bel m B q c = bel m0 B q c) ->
        (forall Q : unit -> (Z -> T) -> Prop, (forall m', updated B A n1 l1 0 n1 beta m m' -> Q tt m') -> wp p1 L m Q) ->
        spec p2 (one K) (bsub B n1 l1) (subm A n1 n1 l1 l1) -> beta = alpha ->
        (forall m', chg B m0 m' ->
           (Gd -> forall q c, 0 <= q < n1 + l1 -> 0 <= c < bo B ->
              vsum K (n1 + l1) (fun k => optri K up un tt' m0 A q k *' bel m' B k c) = alpha *' bel m0 B q c) ->
           (forall q c, n1 + l1 <= q < cols A -> 0 <= c < bo B -> bel m' B q c = bel m0 B q c) -> Q tt m') ->
        wp (p1 ;; p2) L m Q.
      Proof.
        intros B A n1 l1 beta alpha m0 m p1 p2 Q Hok Hx H1 H2 H3 Hd Hc0 Hs Hr P1 P2 Eb HQ. subst beta.
        pose proof Hok as (OB & OA & D & AB & AA & Sq & En & Hn & Ho). pose proof OB as (WB & _).
        wbind. apply P1. intros m1 (U1 & U2 & U3).
        assert (C1 : chg B m0 m1) by (eapply out3_trans; eauto).
        assert (SA : forall i j, pos A i j -> elt m1 A i j = elt m0 A i j) by (intros; eapply chg_elt; eauto).
        assert (SAm : forall i j, pos A i j -> elt m A i j = elt m0 A i j) by (intros; eapply chg_elt; eauto).
        apply P2; [intros G; apply (diag_sub m0); auto; lia|]. intros m2 (V & C2). cbn [cols] in V.
        assert (Hout : forall q c, 0 <= q < cols A -> 0 <= c < bo B -> q < n1 \/ n1 + l1 <= q -> bel m2 B q c = bel m B q c).
        { intros q c Hq Hc Hne. rewrite (chg_bel B n1 l1 m1 m2) by (auto; lia). apply U2; auto. }
        apply HQ.
        - eapply out3_trans; [exact C1|]. eapply chg_sub; [|exact C2]. intros a. apply bsub_in; auto; lia.
        - intros G q c Hq Hc. specialize (V G). specialize (Hs G). apply (glue_low up un tt' m0 A (n1 + l1) n1 (fun k => bel m2 B k c) (fun q => alpha *' bel m0 B q c)); auto; try lia.
          + intros q' Hq'. rewrite <- Hs by auto. apply vsum_ext. intros k Hk. rewrite Hout by (auto; lia). reflexivity.
          + intros q' Hq'. replace (n1 + l1 - n1) with l1 in * by lia.
            specialize (V q' c ltac:(cbn; lia) ltac:(rewrite bo_sub; auto)). cbn [armas_submatrix_unsafe armas_make cols] in V.
            rewrite bsub_bel, U1, Hr in V by (auto; lia).
            rewrite (vsum_ext K l1 _ (fun k => optri K up un tt' m1 (subm A n1 n1 l1 l1) q' k *' bel m2 (bsub B n1 l1) k c)).
            2:{ intros k Hk. rewrite bsub_bel, (coef_sub K). f_equal. symmetry. apply optri_same; auto; lia. }
            rewrite V. rewrite (vsum_ext K n1 (fun k => aij tt' m0 A (n1 + q') k *' bel m2 B k c)
              (fun k => aij tt' m A (n1 + q') (0 + k) *' bel m B (0 + k) c)). ring.
            intros k Hk. rewrite Z.add_0_l, Hout by (auto; lia). f_equal. unfold aij.
            destruct tt'; symmetry; apply SAm; split; lia.
        - intros q c Hq Hc. rewrite Hout by (auto; lia). apply Hr; auto; lia.
      Qed.

      Lemma seq_up : forall B A n1 l1 beta alpha m0 m (p1 p2 : M T unit) (Q : unit -> (Z -> T) -> Prop),
        okk B A -> xorb up tt' = true -> 0 <= n1 -> 0 < l1 -> n1 + l1 <= cols A -> (Gd -> diag m0 A) ->
        chg B m0 m ->
        (Gd -> forall q c, n1 + l1 <= q < cols A -> 0 <= c < bo B ->
           vsum K (cols A - (n1 + l1)) (fun k => optri K up un tt' m0 A q (n1 + l1 + k) *' bel m B (n1 + l1 + k) c) = alpha *' bel m0 B q c) ->
        (forall q c, 0 <= q < n1 + l1 -> 0 <= c < bo B -> bel m B q c = bel m0 B q c) ->
        (forall Q : unit -> (Z -> T) -> Prop,
           (forall m', updated B A n1 l1 (n1 + l1) (cols A - (n1 + l1)) beta m m' -> Q tt m') -> wp p1 L m Q) ->
        spec p2 (one K) (bsub B n1 l1) (subm A n1 n1 l1 l1) -> beta = alpha ->
        (forall m', chg B m0 m' ->
           (Gd -> forall q c, n1 <= q < cols A -> 0 <= c < bo B ->
              vsum K (cols A - n1) (fun k => optri K up un tt' m0 A q (n1 + k) *' bel m' B (n1 + k) c) = alpha *' bel m0 B q c) ->
           (forall q c, 0 <= q < n1 -> 0 <= c < bo B -> bel m' B q c = bel m0 B q c) -> Q tt m') ->
        wp (p1 ;; p2) L m Q.
      Proof.
        intros B A n1 l1 beta alpha m0 m p1 p2 Q Hok Hx H1 H2 H3 Hd Hc0 Hs Hr P1 P2 Eb HQ. subst beta.
        pose proof Hok as (OB & OA & D & AB & AA & Sq & En & Hn & Ho). pose proof OB as (WB & _).
        wbind. apply P1. intros m1 (U1 & U2 & U3).
        assert (C1 : chg B m0 m1) by (eapply out3_trans; eauto).
        assert (SA : forall i j, pos A i j -> elt m1 A i j = elt m0 A i j) by (intros; eapply chg_elt; eauto).
        assert (SAm : forall i j, pos A i j -> elt m A i j = elt m0 A i j) by (intros; eapply chg_elt; eauto).
        apply P2; [intros G; apply (diag_sub m0); auto; lia|]. intros m2 (V & C2). cbn [cols] in V.
        assert (Hout : forall q c, 0 <= q < cols A -> 0 <= c < bo B -> q < n1 \/ n1 + l1 <= q -> bel m2 B q c = bel m B q c).
        { intros q c Hq Hc Hne. rewrite (chg_bel B n1 l1 m1 m2) by (auto; lia). apply U2; auto. }
        apply HQ.
        - eapply out3_trans; [exact C1|]. eapply chg_sub; [|exact C2]. intros a. apply bsub_in; auto; lia.
        - intros G q c Hq Hc. specialize (V G). specialize (Hs G).
          transitivity (vsum K (cols A - n1) (fun k => optri K up un tt' m0 (subm A n1 n1 (cols A - n1) (cols A - n1)) (q - n1) k *' bel m2 B (n1 + k) c)).
          { apply vsum_ext. intros k Hk. rewrite (coef_sub K). replace (n1 + (q - n1)) with q by lia. reflexivity. }
          replace (alpha *' bel m0 B q c) with (alpha *' bel m0 B (n1 + (q - n1)) c) by (replace (n1 + (q - n1)) with q by lia; reflexivity).
          apply (glue_up up un tt' m0 (subm A n1 n1 (cols A - n1) (cols A - n1)) (cols A - n1) l1
            (fun k => bel m2 B (n1 + k) c) (fun q => alpha *' bel m0 B (n1 + q) c)); auto; try lia.
          + intros q' Hq'. replace (cols A - n1 - l1) with (cols A - (n1 + l1)) by lia.
            rewrite Z.add_assoc, <- Hs by (auto; lia). apply vsum_ext. intros k Hk.
            rewrite (coef_sub K). rewrite !Z.add_assoc. rewrite Hout by (auto; lia). reflexivity.
          + intros q' Hq'.
            specialize (V q' c ltac:(cbn; lia) ltac:(rewrite bo_sub; auto)). cbn [armas_submatrix_unsafe armas_make cols] in V.
            rewrite bsub_bel, U1, Hr in V by (auto; lia).
            rewrite (vsum_ext K l1 _ (fun k => optri K up un tt' m1 (subm A n1 n1 l1 l1) q' k *' bel m2 (bsub B n1 l1) k c)).
            2:{ intros k Hk. rewrite bsub_bel, !(coef_sub K). f_equal. symmetry. apply optri_same; auto; lia. }
            rewrite V. replace (cols A - n1 - l1) with (cols A - (n1 + l1)) by lia.
            rewrite (vsum_ext K (cols A - (n1 + l1)) (fun k => aij tt' m0 (subm A n1 n1 (cols A - n1) (cols A - n1)) q' (l1 + k) *' bel m2 B (n1 + (l1 + k)) c)
              (fun k => aij tt' m A (n1 + q') (n1 + l1 + k) *' bel m B (n1 + l1 + k) c)). ring.
            intros k Hk. rewrite !Z.add_assoc, Hout by (auto; lia). f_equal. unfold aij.
            rewrite !subm_elt, !Z.add_assoc. destruct tt'; symmetry; apply SAm; split; lia.
        - intros q c Hq Hc. rewrite Hout by (auto; lia). apply Hr; auto; lia.
      Qed.

      Lemma post_sub : forall B A n len alpha m m1, okk B A -> 0 <= n -> 0 < len -> n + len <= cols A ->
        post alpha m (subm A n n len len) (bsub B n len) m1 ->
        chg B m m1 /\
        (Gd -> forall q c, 0 <= q < len -> 0 <= c < bo B ->
           vsum K len (fun k => optri K up un tt' m A (n + q) (n + k) *' bel m1 B (n + k) c) = alpha *' bel m B (n + q) c) /\
        (forall q c, 0 <= q < cols A -> 0 <= c < bo B -> q < n \/ n + len <= q -> bel m1 B q c = bel m B q c).
      Proof.
        intros B A n len alpha m m1 Hok H1 H2 H3 (V & C1).
        pose proof Hok as (OB & OA & D & AB & AA & Sq & En & Hn & Ho). pose proof OB as (WB & _).
        split; [|split].
        - eapply chg_sub; [|exact C1]. intros a. apply bsub_in; auto; lia.
        - intros G q c Hq Hc. specialize (V G q c Hq). rewrite bo_sub, bsub_bel in V. rewrite <- V by auto.
          cbn [armas_submatrix_unsafe armas_make cols]. apply vsum_ext. intros k Hk. rewrite bsub_bel, (coef_sub K). reflexivity.
        - intros q c Hq Hc Hne. apply (chg_bel B n len); auto; lia.
      Qed.

      Lemma two_low : forall B A h alpha beta p0 p1 p2, okk B A -> xorb up tt' = false -> 0 < h < cols A ->
        spec p0 alpha (bsub B 0 h) (subm A 0 0 h h) ->
        (forall m (Q : unit -> (Z -> T) -> Prop), (forall m', updated B A h (cols A - h) 0 h beta m m' -> Q tt m') -> wp p1 L m Q) ->
        spec p2 (one K) (bsub B h (cols A - h)) (subm A h h (cols A - h) (cols A - h)) -> beta = alpha ->
        spec (p0 ;; p1 ;; p2) alpha B A.
      Proof.
        intros B A h alpha beta p0 p1 p2 Hok Hx Hh P0 P1 P2 Eb m Q Hd HQ.
        pose proof Hok as (OB & OA & D & AB & AA & Sq & En & Hn & Ho).
        wbind. apply P0; [intros G; apply (diag_sub m); auto; lia|]. intros m1 HP.
        apply (post_sub B A 0 h) in HP; auto; try lia. destruct HP as (C1 & V1 & R1).
        apply (seq_low B A h (cols A - h) beta alpha m m1); auto; try lia.
        - intros q c Hq Hc. apply R1; auto; lia.
        - intros m2 C2 V2 _. apply HQ. split; auto. replace (h + (cols A - h)) with (cols A) in V2 by lia. exact V2.
      Qed.

      Lemma two_up : forall B A h alpha beta p0 p1 p2, okk B A -> xorb up tt' = true -> 0 < h < cols A ->
        spec p0 alpha (bsub B h (cols A - h)) (subm A h h (cols A - h) (cols A - h)) ->
        (forall m (Q : unit -> (Z -> T) -> Prop), (forall m', updated B A 0 h h (cols A - h) beta m m' -> Q tt m') -> wp p1 L m Q) ->
        spec p2 (one K) (bsub B 0 h) (subm A 0 0 h h) -> beta = alpha ->
        spec (p0 ;; p1 ;; p2) alpha B A.
      Proof.
        intros B A h alpha beta p0 p1 p2 Hok Hx Hh P0 P1 P2 Eb m Q Hd HQ.
        pose proof Hok as (OB & OA & D & AB & AA & Sq & En & Hn & Ho).
        wbind. apply P0; [intros G; apply (diag_sub m); auto; lia|]. intros m1 HP.
        apply (post_sub B A h (cols A - h)) in HP; auto; try lia. destruct HP as (C1 & V1 & R1).
        apply (seq_up B A 0 h beta alpha m m1); auto; try lia; rewrite ?Z.add_0_l.
        - intros G q c Hq Hc. specialize (V1 G (q - h) c ltac:(lia) Hc). replace (h + (q - h)) with q in V1 by lia. exact V1.
        - intros q c Hq Hc. apply R1; auto; lia.
        - intros m2 C2 V2 _. apply HQ. split; auto. rewrite Z.sub_0_r in V2. intros G q c Hq Hc. rewrite <- V2 by auto.
          apply vsum_ext. intros k Hk. rewrite Z.add_0_l. reflexivity.
      Qed.

      Lemma blk_low : forall B A alpha nb p0 (body : Z -> M T unit), okk B A -> xorb up tt' = false -> 0 < nb ->
        spec p0 alpha (bsub B 0 (Z.min nb (cols A))) (subm A 0 0 (Z.min nb (cols A)) (Z.min nb (cols A))) ->
        (forall i, nb <= i < cols A -> exists p1 p2, body i = (p1 ;; p2) /\
           (forall m (Q : unit -> (Z -> T) -> Prop),
              (forall m', updated B A i (Z.min nb (cols A - i)) 0 i alpha m m' -> Q tt m') -> wp p1 L m Q) /\
           spec p2 (one K) (bsub B i (Z.min nb (cols A - i))) (subm A i i (Z.min nb (cols A - i)) (Z.min nb (cols A - i)))) ->
        spec (p0 ;; for_step nb (cols A) nb body) alpha B A.
      Proof.
        intros B A alpha nb p0 body Hok Hx Hnb P0 HB m Q Hd HQ.
        pose proof Hok as (OB & OA & D & AB & AA & Sq & En & Hn & Ho).
        wbind. apply P0; [intros G; apply (diag_sub m); auto; lia|]. intros m1 HP.
        apply (post_sub B A 0 (Z.min nb (cols A))) in HP; auto; try lia. destruct HP as (C1 & V1 & R1).
        set (I := fun i m' => chg B m m' /\
          (Gd -> forall q c, 0 <= q < i -> 0 <= c < bo B -> vsum K i (fun k => optri K up un tt' m A q k *' bel m' B k c) = alpha *' bel m B q c) /\
          (forall q c, i <= q < cols A -> 0 <= c < bo B -> bel m' B q c = bel m B q c)).
        assert (I0 : I (Z.min nb (cols A)) m1).
        { split; [exact C1|]. split.
          - intros G q c Hq Hc. specialize (V1 G q c Hq Hc). rewrite Z.add_0_l in V1. rewrite <- V1. apply vsum_ext.
            intros k Hk. rewrite Z.add_0_l. reflexivity.
          - intros q c Hq Hc. apply R1; auto; lia. }
        assert (HE' : forall m', I (cols A) m' -> Q tt m').
        { intros m' (C2 & V2 & _). apply HQ. split; auto. }
        destruct (Z_lt_dec nb (cols A)) as [Hlt|Hge].
        - rewrite Z.min_l in I0 by lia.
          apply wp_for_step with (I := I); auto; try lia.
          intros i m2 Hi (C2 & V2 & R2). destruct (HB i Hi) as (p1 & p2 & -> & P1 & P2).
          apply (seq_low B A i (Z.min nb (cols A - i)) alpha alpha m m2); auto; try lia.
          intros m3 C3 V3 R3. replace (Z.min (i + nb) (cols A)) with (i + Z.min nb (cols A - i)) by lia. split; auto.
        - unfold for_step. replace (nb <? cols A) with false by lia. cbn [negb]. apply wp_ret, HE'.
          rewrite Z.min_r in I0 by lia. exact I0.
      Qed.

      Lemma blk_up : forall B A alpha nb p0 (body : Z -> M T unit), okk B A -> xorb up tt' = true -> 0 < nb ->
        spec p0 alpha (bsub B (Z.max 0 (cols A - nb)) (Z.min nb (cols A)))
          (subm A (Z.max 0 (cols A - nb)) (Z.max 0 (cols A - nb)) (Z.min nb (cols A)) (Z.min nb (cols A))) ->
        (forall i, 0 < i <= cols A - nb -> exists p1 p2, body i = (p1 ;; p2) /\
           (forall m (Q : unit -> (Z -> T) -> Prop),
              (forall m', updated B A (Z.max 0 (i - nb)) (Z.min nb i) i (cols A - i) alpha m m' -> Q tt m') -> wp p1 L m Q) /\
           spec p2 (one K) (bsub B (Z.max 0 (i - nb)) (Z.min nb i))
             (subm A (Z.max 0 (i - nb)) (Z.max 0 (i - nb)) (Z.min nb i) (Z.min nb i))) ->
        spec (p0 ;; for_step_down (cols A - nb) nb body) alpha B A.
      Proof.
        intros B A alpha nb p0 body Hok Hx Hnb P0 HB m Q Hd HQ.
        pose proof Hok as (OB & OA & D & AB & AA & Sq & En & Hn & Ho).
        wbind. apply P0; [intros G; apply (diag_sub m); auto; lia|]. intros m1 HP.
        apply (post_sub B A (Z.max 0 (cols A - nb)) (Z.min nb (cols A))) in HP; auto; try lia. destruct HP as (C1 & V1 & R1).
        set (I := fun i m' => chg B m m' /\
          (Gd -> forall q c, i <= q < cols A -> 0 <= c < bo B ->
             vsum K (cols A - i) (fun k => optri K up un tt' m A q (i + k) *' bel m' B (i + k) c) = alpha *' bel m B q c) /\
          (forall q c, 0 <= q < i -> 0 <= c < bo B -> bel m' B q c = bel m B q c)).
        assert (I0 : I (Z.max 0 (cols A - nb)) m1).
        { split; [exact C1|]. split.
          - intros G q c Hq Hc. specialize (V1 G (q - Z.max 0 (cols A - nb)) c ltac:(lia) Hc).
            replace (Z.max 0 (cols A - nb) + (q - Z.max 0 (cols A - nb))) with q in V1 by lia.
            replace (cols A - Z.max 0 (cols A - nb)) with (Z.min nb (cols A)) by lia. exact V1.
          - intros q c Hq Hc. apply R1; auto; lia. }
        assert (HE' : forall m', I 0 m' -> Q tt m').
        { intros m' (C2 & V2 & _). apply HQ. split; auto. intros G q c Hq Hc. rewrite <- V2 by auto.
          rewrite Z.sub_0_r. apply vsum_ext. intros k Hk. rewrite Z.add_0_l. reflexivity. }
        unfold for_step_down. destruct (Z_lt_dec nb (cols A)) as [Hlt|Hge].
        - rewrite Z.max_r in I0 by lia.
          apply wp_for_step with (I := fun t => I (cols A - nb - t)); auto; try lia.
          + replace (cols A - nb - 0) with (cols A - nb) by lia. exact I0.
          + intros t m2 Ht (C2 & V2 & R2). destruct (HB (cols A - nb - t) ltac:(lia)) as (p1 & p2 & -> & P1 & P2).
            set (i := cols A - nb - t) in *.
            assert (Ei : Z.max 0 (i - nb) + Z.min nb i = i) by lia.
            apply (seq_up B A (Z.max 0 (i - nb)) (Z.min nb i) alpha alpha m m2); auto; try rewrite Ei; auto; try lia.
            intros m3 C3 V3 R3. replace (cols A - nb - Z.min (t + nb) (cols A - nb)) with (Z.max 0 (i - nb)) by lia. split; auto.
          + intros m' HI. apply HE'. replace 0 with (cols A - nb - (cols A - nb)) by lia. exact HI.
        - unfold for_step. replace (0 <? cols A - nb) with false by lia. cbn [negb]. apply wp_ret, HE'.
          rewrite Z.max_l in I0 by lia. exact I0.
      Qed.

      (* ---- the functions of trsm_rec.c ---- *)
      Definition side : Z := if right then ARMAS_RIGHT else ARMAS_LEFT.

      Section Fl.
      Variable flags : Z.
      Hypothesis (Hlo : has flags ARMAS_LOWER = negb (has flags ARMAS_UPPER)).
      Hypotheses (Eup : up = has flags ARMAS_UPPER) (Eun : un = has flags ARMAS_UNIT)
        (Ett : tt' = xorb right (has flags ARMAS_TRANSA)) (Ert : right = has flags ARMAS_RIGHT).

      Lemma unb_spec : forall B A alpha, okk B A -> bo B < Z.of_nat fuel ->
        spec (armas_solve_unb K fuel blas2min B alpha A (Z.lor flags side)) alpha B A.
      Proof.
        intros B A alpha (OB & OA & D & AB & AA & Sq & En & Hn & Ho) Hf m Q Hd HQ.
        assert (Eside : has side ARMAS_UPPER = false /\ has side ARMAS_LOWER = false /\ has side ARMAS_UNIT = false /\
          has side ARMAS_TRANS = false /\ has side ARMAS_RIGHT = right) by (unfold side; destruct right; repeat split).
        destruct Eside as (S1 & S2 & S3 & S4 & S5).
        apply (unb_wp B A); auto.
        - unfold fok. rewrite !has_lor, S1, S2, !orb_false_r, Hlo. destruct (has flags ARMAS_UPPER); reflexivity.
        - rewrite has_lor, S5, <- Ert. destruct right; reflexivity.
        - unfold fun1. rewrite has_lor, S3, orb_false_r, <- Eun. exact Hd.
        - intros m' V O. apply HQ. split.
          + intros G q c Hq Hc. rewrite <- V by auto. apply vsum_ext. intros k Hk.
            unfold fup, fun1, ftr. rewrite !has_lor, S1, S2, S3, S4, !orb_false_r, Hlo.
            rewrite <- Eup, <- Eun. change (has flags ARMAS_TRANS) with (has flags ARMAS_TRANSA). rewrite Ett.
            replace (up || negb up) with true by (destruct up; reflexivity). rewrite andb_true_r. reflexivity.
          + intros a Ha _ _. apply O. exact Ha.
      Qed.

      Lemma kflags_left : forall b, b = tt' -> right = false -> kflags (if b then ARMAS_TRANSA else 0).
      Proof. intros b Eb Er. unfold kflags. rewrite Er, <- Eb. destruct b; repeat split. Qed.
      Lemma kflags_right : forall b, b = tt' -> right = true -> kflags (if b then 0 else ARMAS_TRANSB).
      Proof. intros b Eb Er. unfold kflags. rewrite Er, <- Eb. destruct b; repeat split. Qed.

      Lemma quot_half : forall n, 2 <= n -> 0 < Z.quot n 2 < n.
      Proof. intros n Hn. rewrite Z.quot_div_nonneg by Lia.lia. pose proof (Z.div_mod n 2). pose proof (Z.mod_pos_bound n 2). Lia.lia. Qed.

      Lemma left_forward_spec : right = false -> xorb up tt' = false -> forall f B A alpha, okk B A -> bo B < Z.of_nat fuel ->
        cols A < Z.of_nat f -> alpha = one K \/ cols A < blas2min ->
        spec (solve_left_forward K fuel blas2min f B alpha A flags blas2min ch) alpha B A.
      Proof.
        intros Er Hx. assert (Et : tt' = up) by (destruct up, tt'; auto; discriminate).
        induction f as [|f IH]; intros B A alpha Hok Hf Hc Ha.
        { destruct Hok as (_ & _ & _ & _ & _ & _ & _ & ? & _). lia. }
        pose proof (unb_spec B A alpha Hok Hf) as US. unfold side in US.
        pose proof Hok as (OB & OA & D & AB & AA & Sq & En & Hn & Ho).
        cbn [solve_left_forward]. rewrite Er in US.
        destruct (cols A <? blas2min) eqn:E1; [exact US|]. destruct Ha as [->|Ha]; [|lia].
        assert (EB : forall n l, subm B n 0 l (cols B) = bsub B n l) by (intros; unfold bsub; rewrite Er; reflexivity).
        assert (ErB : rows B = cols A) by (rewrite <- En; unfold bn; rewrite Er; reflexivity).
        unfold mat_partition_2x2, mat_partition_2x1. rewrite ErB, Sq.
        pose proof (quot_half (cols A) ltac:(lia)) as Hh. set (h := Z.quot (cols A) 2) in *.
        replace (h >? cols A) with false by Lia.lia. cbn [ATL ATR ABL ABR]. rewrite !EB.
        apply (two_low B A h (one K) (one K)); auto; try lia.
        - apply IH; auto; try (rewrite ?bo_sub; auto; fail); [apply okk_sub; auto; lia|cbn; lia].
        - intros m Q HQ. rewrite <- Eup.
          pose proof (upd_nc_wp B A h (cols A - h) 0 h (if up then ARMAS_TRANSA else 0) Hok ltac:(lia) ltac:(lia) ltac:(lia)
            ltac:(lia) ltac:(lia) ltac:(lia) ltac:(lia) (kflags_left (up) (eq_sym Et) Er) m Q HQ) as U.
          unfold cblock in U. rewrite Er, Et in U. destruct up; exact U.
        - apply IH; auto; try (rewrite ?bo_sub; auto; fail); [apply okk_sub; auto; lia|cbn; lia].
      Qed.

      Lemma left_backward_spec : right = false -> xorb up tt' = true -> forall f B A alpha, okk B A -> bo B < Z.of_nat fuel ->
        cols A < Z.of_nat f -> alpha = one K \/ cols A < blas2min ->
        spec (solve_left_backward K fuel blas2min f B alpha A flags blas2min ch) alpha B A.
      Proof.
        intros Er Hx. assert (Et : tt' = negb up) by (destruct up, tt'; auto; discriminate).
        induction f as [|f IH]; intros B A alpha Hok Hf Hc Ha.
        { destruct Hok as (_ & _ & _ & _ & _ & _ & _ & ? & _). lia. }
        pose proof (unb_spec B A alpha Hok Hf) as US. unfold side in US.
        pose proof Hok as (OB & OA & D & AB & AA & Sq & En & Hn & Ho).
        cbn [solve_left_backward]. rewrite Er in US.
        destruct (cols A <? blas2min) eqn:E1; [exact US|]. destruct Ha as [->|Ha]; [|lia].
        assert (EB : forall n l, subm B n 0 l (cols B) = bsub B n l) by (intros; unfold bsub; rewrite Er; reflexivity).
        assert (ErB : rows B = cols A) by (rewrite <- En; unfold bn; rewrite Er; reflexivity).
        unfold mat_partition_2x2, mat_partition_2x1. rewrite ErB, Sq.
        pose proof (quot_half (cols A) ltac:(lia)) as Hh. set (g := Z.quot (cols A) 2) in *.
        assert (Eg : exists h, g = cols A - h) by (exists (cols A - g); lia). destruct Eg as (h & Eg). clearbody g. subst g.
        replace (cols A - (cols A - h)) with h by lia.
        replace (cols A - h >? cols A) with false by Lia.lia. replace (cols A - (cols A - h)) with h by lia. cbn [ATL ATR ABL ABR]. rewrite !EB.
        apply (two_up B A h (one K) (one K)); auto; try lia.
        - apply IH; auto; try (rewrite ?bo_sub; auto; fail); [apply okk_sub; auto; lia|cbn; lia].
        - intros m Q HQ. rewrite <- Eup.
          pose proof (upd_nc_wp B A 0 h h (cols A - h) (if negb up then ARMAS_TRANSA else 0) Hok ltac:(lia) ltac:(lia) ltac:(lia)
            ltac:(lia) ltac:(lia) ltac:(lia) ltac:(lia) (kflags_left (negb up) (eq_sym Et) Er) m Q HQ) as U.
          unfold cblock in U. rewrite Er, Et in U. destruct up; exact U.
        - apply IH; auto; try (rewrite ?bo_sub; auto; fail); [apply okk_sub; auto; lia|cbn; lia].
      Qed.

      Lemma right_forward_spec : right = true -> xorb up tt' = false -> forall f B A alpha, okk B A -> bo B < Z.of_nat fuel ->
        cols A < Z.of_nat f -> alpha = one K \/ cols A < blas2min ->
        spec (solve_right_forward K fuel blas2min f B alpha A flags blas2min ch) alpha B A.
      Proof.
        intros Er Hx. assert (Et : tt' = up) by (destruct up, tt'; auto; discriminate).
        induction f as [|f IH]; intros B A alpha Hok Hf Hc Ha.
        { destruct Hok as (_ & _ & _ & _ & _ & _ & _ & ? & _). lia. }
        pose proof (unb_spec B A alpha Hok Hf) as US. unfold side in US.
        pose proof Hok as (OB & OA & D & AB & AA & Sq & En & Hn & Ho).
        cbn [solve_right_forward]. rewrite Er in US.
        destruct (cols A <? blas2min) eqn:E1; [exact US|]. destruct Ha as [->|Ha]; [|lia].
        assert (EB : forall n l, subm B 0 n (rows B) l = bsub B n l) by (intros; unfold bsub; rewrite Er; reflexivity).
        assert (ErB : cols B = cols A) by (rewrite <- En; unfold bn; rewrite Er; reflexivity).
        unfold mat_partition_2x2, mat_partition_1x2. rewrite ErB, Sq.
        pose proof (quot_half (cols A) ltac:(lia)) as Hh. set (h := Z.quot (cols A) 2) in *.
        replace (h >? cols A) with false by Lia.lia. cbn [ATL ATR ABL ABR]. rewrite !EB.
        apply (two_low B A h (one K) (one K)); auto; try lia.
        - apply IH; auto; try (rewrite ?bo_sub; auto; fail); [apply okk_sub; auto; lia|cbn; lia].
        - intros m Q HQ. rewrite <- Eup.
          pose proof (upd_nc_wp B A h (cols A - h) 0 h (if up then 0 else ARMAS_TRANSB) Hok ltac:(lia) ltac:(lia) ltac:(lia)
            ltac:(lia) ltac:(lia) ltac:(lia) ltac:(lia) (kflags_right (up) (eq_sym Et) Er) m Q HQ) as U.
          unfold cblock in U. rewrite Er, Et in U. destruct up; exact U.
        - apply IH; auto; try (rewrite ?bo_sub; auto; fail); [apply okk_sub; auto; lia|cbn; lia].
      Qed.

      Lemma right_backward_spec : right = true -> xorb up tt' = true -> forall f B A alpha, okk B A -> bo B < Z.of_nat fuel ->
        cols A < Z.of_nat f -> alpha = one K \/ cols A < blas2min ->
        spec (solve_right_backward K fuel blas2min f B alpha A flags blas2min ch) alpha B A.
      Proof.
        intros Er Hx. assert (Et : tt' = negb up) by (destruct up, tt'; auto; discriminate).
        induction f as [|f IH]; intros B A alpha Hok Hf Hc Ha.
        { destruct Hok as (_ & _ & _ & _ & _ & _ & _ & ? & _). lia. }
        pose proof (unb_spec B A alpha Hok Hf) as US. unfold side in US.
        pose proof Hok as (OB & OA & D & AB & AA & Sq & En & Hn & Ho).
        cbn [solve_right_backward]. rewrite Er in US.
        destruct (cols A <? blas2min) eqn:E1; [exact US|]. destruct Ha as [->|Ha]; [|lia].
        assert (EB : forall n l, subm B 0 n (rows B) l = bsub B n l) by (intros; unfold bsub; rewrite Er; reflexivity).
        assert (ErB : cols B = cols A) by (rewrite <- En; unfold bn; rewrite Er; reflexivity).
        unfold mat_partition_2x2, mat_partition_1x2. rewrite ErB, Sq.
        pose proof (quot_half (cols A) ltac:(lia)) as Hh. set (g := Z.quot (cols A) 2) in *.
        assert (Eg : exists h, g = cols A - h) by (exists (cols A - g); lia). destruct Eg as (h & Eg). clearbody g. subst g.
        replace (cols A - (cols A - h)) with h by lia.
        replace (cols A - h >? cols A) with false by Lia.lia. replace (cols A - (cols A - h)) with h by lia. cbn [ATL ATR ABL ABR]. rewrite !EB.
        apply (two_up B A h (one K) (one K)); auto; try lia.
        - apply IH; auto; try (rewrite ?bo_sub; auto; fail); [apply okk_sub; auto; lia|cbn; lia].
        - intros m Q HQ. rewrite <- Eup.
          pose proof (upd_nc_wp B A 0 h h (cols A - h) (if negb up then 0 else ARMAS_TRANSB) Hok ltac:(lia) ltac:(lia) ltac:(lia)
            ltac:(lia) ltac:(lia) ltac:(lia) ltac:(lia) (kflags_right (negb up) (eq_sym Et) Er) m Q HQ) as U.
          unfold cblock in U. rewrite Er, Et in U. destruct up; exact U.
        - apply IH; auto; try (rewrite ?bo_sub; auto; fail); [apply okk_sub; auto; lia|cbn; lia].
      Qed.

      Lemma rec_spec : forall B A alpha, okk B A -> bo B < Z.of_nat fuel -> cols A < Z.of_nat fuel ->
        alpha = one K \/ cols A < blas2min -> spec (armas_solve_recursive K fuel blas2min B alpha A flags ch) alpha B A.
      Proof.
        intros B A alpha Hok H1 H2 H3.
        pose proof (fun E X => left_forward_spec E X fuel B A alpha Hok H1 H2 H3) as F1.
        pose proof (fun E X => left_backward_spec E X fuel B A alpha Hok H1 H2 H3) as F2.
        pose proof (fun E X => right_forward_spec E X fuel B A alpha Hok H1 H2 H3) as F3.
        pose proof (fun E X => right_backward_spec E X fuel B A alpha Hok H1 H2 H3) as F4.
        unfold armas_solve_recursive. cbv zeta. rewrite trsm_switch, Hlo, <- Ert, <- Eup. rewrite Ett in F1, F2, F3, F4.
        destruct right, (has flags ARMAS_TRANSA), up;
          cbn [Z.eqb Z.add Z.lor ARMAS_RIGHT ARMAS_LOWER ARMAS_UPPER ARMAS_TRANSA negb orb Pos.add Pos.lor Pos.eqb]; auto.
      Qed.
      End Fl.

      (* ---- the functions of trsm_blk.c ---- *)
      Section Bl.
      Variable flags : Z.
      Hypothesis (Hlo : has flags ARMAS_LOWER = negb (has flags ARMAS_UPPER)).
      Hypotheses (Eup : up = has flags ARMAS_UPPER) (Eun : un = has flags ARMAS_UNIT)
        (Ett : tt' = xorb right (has flags ARMAS_TRANSA)) (Ert : right = has flags ARMAS_RIGHT).
      Hypothesis Hkf : right = false -> kflags flags.

      Lemma rec_side : forall B A alpha, okk B A -> bo B < Z.of_nat fuel -> cols A < Z.of_nat fuel ->
        alpha = one K \/ cols A < blas2min ->
        spec (armas_solve_recursive K fuel blas2min B alpha A (Z.lor flags side) ch) alpha B A.
      Proof.
        assert (Eside : has side ARMAS_UPPER = false /\ has side ARMAS_LOWER = false /\ has side ARMAS_UNIT = false /\
          has side ARMAS_TRANSA = false /\ has side ARMAS_RIGHT = right) by (unfold side; destruct right; repeat split).
        destruct Eside as (S1 & S2 & S3 & S4 & S5).
        apply rec_spec; rewrite ?has_lor, ?S1, ?S2, ?S3, ?S4, ?S5, ?orb_false_r; auto.
        rewrite <- Ert. destruct right; reflexivity.
      Qed.

      Lemma kernel_dims : forall beta C alpha A B r c x y x' y' fl,
        armas_mult_kernel K beta C alpha A (subm B r c x y) fl ch = armas_mult_kernel K beta C alpha A (subm B r c x' y') fl ch.
      Proof. reflexivity. Qed.

      Lemma blocked_spec : forall B A alpha, okk B A -> bo B < Z.of_nat fuel -> cols A < Z.of_nat fuel ->
        alpha = one K \/ Z.min (NB ch) (cols A) < blas2min ->
        spec (armas_solve_blocked K fuel blas2min B alpha A flags ch) alpha B A.
      Proof.
        intros B A alpha Hok Hf1 Hf2 Ha.
        pose proof Hok as (OB & OA & D & AB & AA & Sq & En & Hn & Ho).
        assert (Hnb : 0 < NB ch) by (destruct OK as (_ & ? & _); auto).
        assert (RS : forall n l alpha, 0 <= n -> 0 < l -> n + l <= cols A -> alpha = one K \/ l < blas2min ->
          spec (armas_solve_recursive K fuel blas2min (bsub B n l) alpha (subm A n n l l) (Z.lor flags side) ch) alpha
            (bsub B n l) (subm A n n l l)).
        { intros n l al Q1 Q2 Q3 Q4. apply rec_side; [apply okk_sub; auto|rewrite bo_sub; auto|cbn; lia|exact Q4]. }
        unfold side in RS.
        assert (E0 : (if NB ch <? cols A then NB ch else cols A) = Z.min (NB ch) (cols A)) by (destruct (NB ch <? cols A) eqn:E; lia).
        assert (E1 : (if NB ch <? cols A then cols A - NB ch else 0) = Z.max 0 (cols A - NB ch)) by (destruct (NB ch <? cols A) eqn:E; lia).
        assert (E2 : forall i, (if i <? cols A - NB ch then NB ch else cols A - i) = Z.min (NB ch) (cols A - i))
          by (intros i; destruct (i <? cols A - NB ch) eqn:E; lia).
        assert (E3 : forall i, (if i <? NB ch then i else NB ch) = Z.min (NB ch) i) by (intros i; destruct (i <? NB ch) eqn:E; lia).
        assert (E4 : forall i, (if i <? NB ch then 0 else i - NB ch) = Z.max 0 (i - NB ch)) by (intros i; destruct (i <? NB ch) eqn:E; lia).
        unfold armas_solve_blocked. cbv zeta. rewrite trsm_switch, Hlo, <- Ert, <- Eup.
        destruct right eqn:Er.
        - assert (EB : forall n l, subm B 0 n (rows B) l = bsub B n l) by (intros; unfold bsub; rewrite Er; reflexivity).
          assert (ErB : cols B = cols A) by (rewrite <- En; unfold bn; rewrite Er; reflexivity).
          assert (F : xorb up tt' = false -> spec (solve_blk_ru_rlt K fuel blas2min B A alpha flags ch) alpha B A).
          { intros Hx. assert (Et : tt' = up) by (destruct up, tt'; auto; discriminate).
            unfold solve_blk_ru_rlt. cbv zeta. rewrite E0, EB.
            apply blk_low; auto.
            { apply RS; auto; lia. }
            intros i Hi. eexists. eexists. split; [reflexivity|]. rewrite E2, !EB. split.
            - intros m Q HQ.
              pose proof (upd_wp B A i (Z.min (NB ch) (cols A - i)) 0 i (if up then 0 else ARMAS_TRANSB) Hok ltac:(lia) ltac:(lia) ltac:(lia)
                ltac:(lia) ltac:(lia) ltac:(lia) ltac:(lia) (kflags_right up (eq_sym Et) Er) alpha m Q HQ) as U.
              unfold cblock in U. rewrite Er, Et in U. rewrite Hlo, <- Eup. destruct up; exact U.
            - apply RS; auto; lia. }
          assert (G : xorb up tt' = true -> spec (solve_blk_rut_rl K fuel blas2min B A alpha flags ch) alpha B A).
          { intros Hx. assert (Et : tt' = negb up) by (destruct up, tt'; auto; discriminate).
            unfold solve_blk_rut_rl. cbv zeta. rewrite E0, E1, EB.
            apply blk_up; auto.
            { apply RS; auto; lia. }
            intros i Hi. eexists. eexists. split; [reflexivity|]. rewrite E3, E4, ErB, !EB. split.
            - intros m Q HQ.
              pose proof (upd_wp B A (Z.max 0 (i - NB ch)) (Z.min (NB ch) i) i (cols A - i) (if negb up then 0 else ARMAS_TRANSB) Hok ltac:(lia) ltac:(lia) ltac:(lia)
                ltac:(lia) ltac:(lia) ltac:(lia) ltac:(lia) (kflags_right (negb up) (eq_sym Et) Er) alpha m Q HQ) as U.
              unfold cblock in U. rewrite Er, Et in U. rewrite <- Eup. destruct up; cbn [negb] in U; exact U.
            - apply RS; auto; lia. }
          rewrite Ett in F, G.
          destruct (has flags ARMAS_TRANSA), up;
            cbn [Z.eqb Z.add Z.lor ARMAS_RIGHT ARMAS_LOWER ARMAS_UPPER ARMAS_TRANSA negb orb Pos.add Pos.lor Pos.eqb]; auto.
        - assert (EB : forall n l, subm B n 0 l (cols B) = bsub B n l) by (intros; unfold bsub; rewrite Er; reflexivity).
          assert (ErB : rows B = cols A) by (rewrite <- En; unfold bn; rewrite Er; reflexivity).
          assert (F : xorb up tt' = false -> spec (solve_blk_lut_ll K fuel blas2min B A alpha flags ch) alpha B A).
          { intros Hx. assert (Et : tt' = up) by (destruct up, tt'; auto; discriminate).
            unfold solve_blk_lut_ll. cbv zeta. rewrite E0, EB.
            apply blk_low; auto.
            { apply RS; auto; lia. }
            intros i Hi. eexists. eexists. split; [reflexivity|]. rewrite E2, !EB. split.
            - intros m Q HQ.
              pose proof (upd_wp B A i (Z.min (NB ch) (cols A - i)) 0 i flags Hok ltac:(lia) ltac:(lia) ltac:(lia)
                ltac:(lia) ltac:(lia) ltac:(lia) ltac:(lia) (Hkf eq_refl) alpha m Q HQ) as U.
              unfold cblock in U. rewrite Er, Et in U. rewrite <- Eup. destruct up; exact U.
            - apply RS; auto; lia. }
          assert (G : xorb up tt' = true -> spec (solve_blk_lu_llt K fuel blas2min B A alpha flags ch) alpha B A).
          { intros Hx. assert (Et : tt' = negb up) by (destruct up, tt'; auto; discriminate).
            unfold solve_blk_lu_llt. cbv zeta. rewrite E0, E1, EB.
            apply blk_up; auto.
            { apply RS; auto; lia. }
            intros i Hi. eexists. eexists. split; [reflexivity|]. rewrite E3, E4, !EB. split.
            - intros m Q HQ.
              pose proof (upd_wp B A (Z.max 0 (i - NB ch)) (Z.min (NB ch) i) i (cols A - i) flags Hok ltac:(lia) ltac:(lia) ltac:(lia)
                ltac:(lia) ltac:(lia) ltac:(lia) ltac:(lia) (Hkf eq_refl) alpha m Q HQ) as U.
              unfold cblock in U. rewrite Er, Et in U. rewrite <- Eup. destruct up; cbn [negb] in U; exact U.
            - apply RS; auto; lia. }
          rewrite Ett in F, G.
          destruct (has flags ARMAS_TRANSA), up;
            cbn [Z.eqb Z.add Z.lor ARMAS_RIGHT ARMAS_LOWER ARMAS_UPPER ARMAS_TRANSA negb orb Pos.add Pos.lor Pos.eqb]; auto.
      Qed.
      End Bl.
    End Rec.
  End Side.
End P.
