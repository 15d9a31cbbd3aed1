(* PTrmm.v: product of a triangular matrix and a matrix. *)
From Coq Require Import ZArith Lia Ring Bool ZifyBool.
From Verif Require Import Mem MView SpecView PView PSub Hoare MFlags MBase MCopy PUpd PCopy
  MNum SpecNum MBlas1 PSum PBlas1 MElem PElem SpecPivot MPivot PPivot MSort PSort MBlas2 PMvec PBlas2
  PFrame SpecTrm MTrm PTrm MGemm PGemm PMatcpy PMult MTrsm PTrsm MTrmm.
Local Open Scope Z_scope.
Local Open Scope prog_scope.
Ltac lia := nobool; zlia.

Lemma half : forall n, 2 <= n -> 0 < Z.quot n 2 < n.
Proof. intros n Hn. rewrite Z.quot_div_nonneg by Lia.lia. pose proof (Z.div_mod n 2). pose proof (Z.mod_pos_bound n 2). Lia.lia. Qed.

Section P.
  Context {T : Type} (K : num T).
  Implicit Types (m : Z -> T) (L : Z -> bool).
  Local Notation "x +' y" := (add K x y) (at level 50, left associativity).
  Local Notation "x *' y" := (mul K x y) (at level 40, left associativity).
  Hypothesis HR : is_ring K.
  Hypothesis HE : eqb_ok K.
  Let HR' : ring_theory (zero K) (one K) (add K) (mul K) (sub K) (opp K) eq := HR.
  Add Ring Kring : HR'.
  Local Notation subm := armas_submatrix_unsafe.

  Section Side.
    Variable right : bool.
    Local Notation bel := (bel right).
    Local Notation bn := (bn right).
    Local Notation bo := (bo right).
    Local Notation bsub := (bsub right).

    Variables (fuel : nat) (blas2min : Z) (L : Z -> bool).

    Lemma scale_val : forall A un i alpha m (Q : T -> (Z -> T) -> Prop), mok L A -> pos A i i ->
      Q (alpha *' dii K un m A i) m -> wp (trmm_scale K alpha A un i) L m Q.
    Proof.
      intros A un i alpha m Q (WA & LA) Hp HQ. unfold trmm_scale, dii in *. destruct un.
      - apply wp_ret. replace alpha with (alpha *' one K) by ring. exact HQ.
      - wbind. apply get_unsafe_wp; auto. apply wp_ret. exact HQ.
    Qed.

    Section Unb.
      Variables (B A : view).
      Hypotheses (OB : mok L B) (OA : mok L A) (D : disjoint B A).
      Hypotheses (Sq : rows A = cols A) (En : bn B = cols A) (Hn : 0 < cols A) (Ho : 0 < bo B) (Hf : bo B < Z.of_nat fuel).
      Hypothesis Hb2 : blas2min = 0 \/ 2 <= blas2min.
      Variables (up un tt' : bool) (alpha : T) (m : Z -> T).

      (* row q of the product *)
      Definition prow q c : T := alpha *' vsum K (cols A) (fun k => optri K up un tt' m A q k *' bel m B k c).

      Lemma last_wp : forall i m1 (Q : unit -> (Z -> T) -> Prop), 0 <= i < cols A -> only_changes B m m1 ->
        (forall c, 0 <= c < bo B -> bel m1 B i c = bel m B i c) ->
        (forall m2, (forall c, 0 <= c < bo B -> bel m2 B i c = (alpha *' dii K un m A i) *' bel m B i c) ->
          (forall q c, 0 <= q < cols A -> 0 <= c < bo B -> q <> i -> bel m2 B q c = bel m1 B q c) ->
          only_changes B m m2 -> Q tt m2) ->
        wp (trmm_last K (bsub B i 1) alpha A un i) L m1 Q.
      Proof.
        intros i m1 Q Hi Ho1 Ei HQ. pose proof OB as (WB & LB). unfold trmm_last. wbind.
        apply scale_val; [auto|split; lia|].
        replace (dii K un m1 A i) with (dii K un m A i).
        2:{ unfold dii. destruct un; auto. symmetry. apply (oc_elt B A); auto. split; lia. }
        apply scale_wp; auto; [apply line_vok; auto; lia|]. rewrite line_len. intros m2 E2 O2. apply HQ.
        - intros c Hc. rewrite <- (line_velt right m2) by auto. rewrite E2, line_velt, Ei by auto. reflexivity.
        - intros q c Hq Hc Hne. eapply bsub_oc with (n := i) (len := 1); eauto; lia.
        - eapply only_trans; [exact Ho1|]. eapply oc_mono; [|exact O2]. intros a. apply bsub_in; auto; lia.
      Qed.

      Lemma step_wp : forall m1 i a0 n len fl (a : Z -> T) (Q : unit -> (Z -> T) -> Prop), 0 <= i < cols A -> only_changes B m m1 ->
        (forall c, 0 <= c < bo B -> bel m1 B i c = bel m B i c) ->
        (forall k c, 0 <= k < len -> 0 <= c < bo B -> bel m1 B (n + k) c = bel m B (n + k) c) ->
        vok L a0 -> vlen a0 = len -> (forall x, cell a0 x -> cell A x) -> 0 <= n -> 0 < len -> n + len <= cols A ->
        i < n \/ n + len <= i -> has fl ARMAS_ABSA = false -> has fl ARMAS_TRANS = negb right ->
        (forall k, 0 <= k < len -> velt m1 a0 k = a k) ->
        (forall m2, (forall c, 0 <= c < bo B ->
            bel m2 B i c = alpha *' (vsum K len (fun k => a k *' bel m B (n + k) c) +' dii K un m A i *' bel m B i c)) ->
          (forall q c, 0 <= q < cols A -> 0 <= c < bo B -> q <> i -> bel m2 B q c = bel m1 B q c) ->
          only_changes B m m2 -> Q tt m2) ->
        wp (trmm_step K fuel blas2min (bsub B i 1) alpha (bsub B n len) a0 A un i fl) L m1 Q.
      Proof.
        intros m1 i a0 n len fl a Q Hi Ho1 Ei Ek Oa El Ina Hn' Hl Hb Hout Habs Htr Ha HQ.
        pose proof OB as (WB & LB).
        assert (V1 : vok L (bsub B i 1)) by (apply line_vok; auto; lia).
        assert (V2 : mok L (bsub B n len)) by (apply bsub_mok; auto; lia).
        assert (D1 : disjoint (bsub B i 1) A) by (intros x Hx; apply D; revert Hx; apply bsub_in; auto; lia).
        unfold trmm_step. wbind. apply scale_val; [auto|split; lia|].
        replace (dii K un m1 A i) with (dii K un m A i).
        2:{ unfold dii. destruct un; auto. symmetry. apply (oc_elt B A); auto. split; lia. }
        apply mvmult_unsafe_wp; auto.
        - rewrite line_len. auto.
        - apply bsub_disj; auto; lia.
        - intros x Hx Hx'. apply (D1 x); auto.
        - unfold PTrsm.bsub, PTrsm.bo in *. destruct right; cbn; lia.
        - unfold PTrsm.bsub, PTrsm.bo in *. destruct right; cbn; lia.
        - rewrite Htr. unfold gsize. rewrite line_len, El. unfold PTrsm.bsub, PTrsm.bo. destruct right; cbn; auto.
        - rewrite line_len. intros m2 E2 O2. apply HQ.
          + intros c Hc. rewrite <- (line_velt right m2) by auto. rewrite E2, line_velt, Ei, El by auto.
            rewrite (vsum_ext K len _ (fun k => a k *' bel m B (n + k) c)). ring.
            intros k Hk. rewrite Ha by auto. rewrite <- Ek by auto. rewrite <- (bsub_bel right m1 B n len).
            rewrite Htr. unfold PTrsm.bel, opm. destruct right; cbn [negb]; ring.
          + intros q c Hq Hc Hne. eapply bsub_oc with (n := i) (len := 1); eauto; lia.
          + eapply only_trans; [exact Ho1|]. eapply oc_mono; [|exact O2]. intros x. apply bsub_in; auto; lia.
      Qed.

      Variable Q : unit -> (Z -> T) -> Prop.
      Hypothesis HQ : forall m', (forall q c, 0 <= q < cols A -> 0 <= c < bo B -> bel m' B q c = prow q c) -> only_changes B m m' -> Q tt m'.

      Lemma arow : forall m1 i c n k, only_changes B m m1 -> 0 <= i < cols A -> 0 <= c -> c + n <= cols A -> 0 <= k < n ->
        velt m1 (if negb tt' then subm A i c 1 n else subm A c i n 1) k = aij tt' m A i (c + k).
      Proof.
        intros m1 i c n k Ho1 Hi Hc Hcn Hk. destruct tt'; cbn [negb].
        - rewrite sub_col_velt by auto. unfold aij. apply (oc_elt B A); auto. split; lia.
        - rewrite sub_row_velt by auto. unfold aij. apply (oc_elt B A); auto. split; lia.
      Qed.

      Lemma low_wp : forall fl (f : Z -> M T unit), xorb up tt' = false -> has fl ARMAS_ABSA = false -> has fl ARMAS_TRANS = negb right ->
        (forall i, f i = trmm_step K fuel blas2min (bsub B i 1) alpha (bsub B 0 i)
           (if negb tt' then subm A i 0 1 i else subm A 0 i i 1) A un i fl) ->
        wp (for_down (cols A - 1) 1 f ;; trmm_last K (bsub B 0 1) alpha A un 0) L m Q.
      Proof.
        intros fl f Hx Habs Htr Ef. wbind. pose proof OA as (WA & LA).
        apply wp_for_down with (I := fun i m2 => only_changes B m m2 /\
          (forall q c, 0 <= q <= i -> 0 <= c < bo B -> bel m2 B q c = bel m B q c) /\
          (forall q c, i < q < cols A -> 0 <= c < bo B -> bel m2 B q c = prow q c)).
        - split; [apply oc_refl|]. split; auto. intros; lia.
        - intros i m2 Hi (H1 & H2 & H3). rewrite Ef.
          apply step_wp with (a := fun k => aij tt' m A i (0 + k)); auto; try lia.
          + intros c Hc. apply H2; auto; lia.
          + intros k c Hk Hc. apply H2; auto; lia.
          + destruct tt'; cbn [negb]; [apply sub_col_vok|apply sub_row_vok]; auto; lia.
          + destruct tt'; cbn [negb]; [apply sub_col_len|apply sub_row_len].
          + intros x. destruct tt'; cbn [negb]; apply subm_in; auto; lia.
          + intros k Hk. apply arow; auto; lia.
          + intros m3 E3 E3' O3. split; auto. split; [intros; rewrite E3' by (auto; lia); apply H2; auto; lia|].
            intros q c Hq Hc. destruct (Z.eq_dec q i) as [->|]; [|rewrite E3' by (auto; lia); apply H3; auto; lia].
            rewrite E3 by auto. unfold prow. rewrite (sum_low K HR) by (auto; lia). reflexivity.
        - intros m2 (H1 & H2 & H3). apply last_wp; auto; try lia.
          { intros c Hc. apply H2; auto; lia. }
          intros m3 E3 E3' O3. apply HQ; auto. intros q c Hq Hc. destruct (Z.eq_dec q 0) as [->|].
          + rewrite E3 by auto. unfold prow. rewrite (sum_low K HR), vsum_0 by (auto; lia). ring.
          + rewrite E3' by (auto; lia). apply H3; auto; lia.
      Qed.

      Lemma up_wp : forall fl (f : Z -> M T unit), xorb up tt' = true -> has fl ARMAS_ABSA = false -> has fl ARMAS_TRANS = negb right ->
        (forall i, f i = trmm_step K fuel blas2min (bsub B i 1) alpha (bsub B (i + 1) (cols A - i - 1))
           (if negb tt' then subm A i (i + 1) 1 (cols A - i - 1) else subm A (i + 1) i (cols A - i - 1) 1) A un i fl) ->
        wp (for_up 0 (cols A - 1) 1 f ;; trmm_last K (bsub B (cols A - 1) 1) alpha A un (cols A - 1)) L m Q.
      Proof.
        intros fl f Hx Habs Htr Ef. wbind. pose proof OA as (WA & LA).
        apply wp_for1 with (I := fun i m2 => only_changes B m m2 /\
          (forall q c, i <= q < cols A -> 0 <= c < bo B -> bel m2 B q c = bel m B q c) /\
          (forall q c, 0 <= q < i -> 0 <= c < bo B -> bel m2 B q c = prow q c)).
        - split; [apply oc_refl|]. split; auto. intros; lia.
        - intros i m2 Hi (H1 & H2 & H3). rewrite Ef.
          apply step_wp with (a := fun k => aij tt' m A i (i + 1 + k)); auto; try lia.
          + intros c Hc. apply H2; auto; lia.
          + intros k c Hk Hc. apply H2; auto; lia.
          + destruct tt'; cbn [negb]; [apply sub_col_vok|apply sub_row_vok]; auto; lia.
          + destruct tt'; cbn [negb]; [apply sub_col_len|apply sub_row_len].
          + intros x. destruct tt'; cbn [negb]; apply subm_in; auto; lia.
          + intros k Hk. apply arow; auto; lia.
          + intros m3 E3 E3' O3. split; auto. split; [intros; rewrite E3' by (auto; lia); apply H2; auto; lia|].
            intros q c Hq Hc. destruct (Z.eq_dec q i) as [->|]; [|rewrite E3' by (auto; lia); apply H3; auto; lia].
            rewrite E3 by auto. unfold prow. rewrite (sum_up K HR) by (auto; lia).
            replace (cols A - 1 - i) with (cols A - i - 1) by lia. reflexivity.
        - replace (Z.max 0 (cols A - 1)) with (cols A - 1) by lia.
          intros m2 (H1 & H2 & H3). apply last_wp; auto; try lia.
          { intros c Hc. apply H2; auto; lia. }
          intros m3 E3 E3' O3. apply HQ; auto. intros q c Hq Hc. destruct (Z.eq_dec q (cols A - 1)) as [->|].
          + rewrite E3 by auto. unfold prow. rewrite (sum_up K HR) by (auto; lia).
            replace (cols A - 1 - (cols A - 1)) with 0 by lia. rewrite vsum_0 by lia. ring.
          + rewrite E3' by (auto; lia). apply H3; auto; lia.
      Qed.

      Lemma unb_wp : forall flags, has flags ARMAS_RIGHT = right -> up = has flags ARMAS_UPPER -> un = has flags ARMAS_UNIT ->
        tt' = xorb right (has flags ARMAS_TRANSA) -> wp (armas_trmm_unb K fuel blas2min B alpha A flags) L m Q.
      Proof.
        intros flags Er Eup Eun Ett. unfold armas_trmm_unb. rewrite Er, <- Eup, <- Eun. cbv zeta.
        pose proof low_wp as PL. pose proof up_wp as PU.
        destruct right eqn:Ert.
        - assert (EB : forall n l, subm B 0 n (rows B) l = PTrsm.bsub true B n l) by reflexivity.
          destruct up eqn:Eu, (has flags ARMAS_TRANSA); rewrite Ett in PL, PU.
          + unfold trmm_unb_rut. rewrite EB. apply (PU 0); auto; intros i; rewrite ??EB; reflexivity.
          + unfold trmm_unb_ru. rewrite EB. apply (PL 0); auto; intros i; rewrite ??EB; reflexivity.
          + unfold trmm_unb_rlt. rewrite EB. apply (PL 0); auto; intros i; rewrite ??EB; reflexivity.
          + unfold trmm_unb_rl. rewrite EB. apply (PU 0); auto; intros i; rewrite ??EB; reflexivity.
        - assert (EB : forall n l, subm B n 0 l (cols B) = PTrsm.bsub false B n l) by reflexivity.
          assert (ErB : rows B = cols A) by (exact En).
          destruct up eqn:Eu, (has flags ARMAS_TRANSA); rewrite Ett in PL, PU.
          + unfold trmm_unb_lut. rewrite EB. apply (PL ARMAS_TRANS); auto; intros i; rewrite ??EB; reflexivity.
          + unfold trmm_unb_lu. rewrite EB. apply (PU ARMAS_TRANS); auto; intros i; rewrite ?ErB, ?EB; reflexivity.
          + unfold trmm_unb_llt. rewrite EB. apply (PU ARMAS_TRANS); auto; intros i; rewrite ?ErB, ?EB; reflexivity.
          + unfold trmm_unb_ll. rewrite EB. apply (PL ARMAS_TRANS); auto; intros i; rewrite ??EB; reflexivity.
      Qed.
    End Unb.

    (* ---- recursive and blocked versions ---- *)
    Section Rec.
      Variable ch : cache.
      Hypotheses (OK : blocks_ok L ch) (Hrb : 0 < rb ch <= MB ch) (Hb2 : 2 <= blas2min).
      Variables (up un tt' : bool).
      Local Notation okk := (okk right L ch).
      Local Notation chg := (@chg T ch).
      Local Notation kflags := (kflags right tt').
      Local Notation cblock := (cblock tt').

      Definition mpost alpha m A B m' : Prop :=
        (forall q c, 0 <= q < cols A -> 0 <= c < bo B -> bel m' B q c = prow B A up un tt' alpha m q c) /\ chg B m m'.
      Definition mspec (prog : M T unit) alpha B A : Prop :=
        forall m (Q : unit -> (Z -> T) -> Prop), (forall m', mpost alpha m A B m' -> Q tt m') -> wp prog L m Q.

      (* rows n1.. get the contribution of rows n0.. *)
      Definition added B A n1 l1 n0 l0 alpha m m' : Prop :=
        (forall q c, 0 <= q < l1 -> 0 <= c < bo B -> bel m' B (n1 + q) c = bel m B (n1 + q) c +'
           alpha *' vsum K l0 (fun k => aij tt' m A (n1 + q) (n0 + k) *' bel m B (n0 + k) c)) /\
        chg (bsub B n1 l1) m m'.

      Lemma add_wp : forall B A n1 l1 n0 l0 fl alpha m (Q : unit -> (Z -> T) -> Prop),
        okk B A -> 0 <= n1 -> 0 <= l1 -> n1 + l1 <= cols A -> 0 <= n0 -> 0 <= l0 ->
        n0 + l0 <= cols A -> n1 + l1 <= n0 \/ n0 + l0 <= n1 -> kflags fl ->
        (forall m', added B A n1 l1 n0 l0 alpha m m' -> Q tt m') ->
        wp (if right then armas_mult_kernel_nc K (bsub B n1 l1) alpha (bsub B n0 l0) (cblock A n1 l1 n0 l0) fl ch
            else armas_mult_kernel_nc K (bsub B n1 l1) alpha (cblock A n1 l1 n0 l0) (bsub B n0 l0) fl ch) L m Q.
      Proof.
        intros B A n1 l1 n0 l0 fl alpha m Q Hok H1 H2 H3 H4 H5 H6 H7 Hfl HQ.
        destruct (upd_facts right L ch tt' B A n1 l1 n0 l0 Hok H1 H2 H3 H4 H5 H6 H7) as (F1 & F2 & F3 & F4 & F5 & (F6 & F6') & (F7 & F7') & (F8 & F8')).
        pose proof Hok as (OB & OA & D & AB & AA & Sq & En & Hn & Ho). pose proof OB as (WB & _).
        assert (UP : forall m', (forall i j, pos (bsub B n1 l1) i j -> elt m' (bsub B n1 l1) i j = elt m (bsub B n1 l1) i j +'
             (if right then opdot K (bsub B n0 l0) (cblock A n1 l1 n0 l0) fl m l0 i j
              else opdot K (cblock A n1 l1 n0 l0) (bsub B n0 l0) fl m l0 i j) *' alpha) ->
          chg (bsub B n1 l1) m m' -> Q tt m').
        { intros m' V O. apply HQ. split; [|exact O].
          intros q c Hq Hc. rewrite <- !(bsub_bel right _ B n1 l1 q c).
          assert (E : bel m' (bsub B n1 l1) q c = bel m (bsub B n1 l1) q c +'
            vsum K l0 (fun k => aij tt' m A (n1 + q) (n0 + k) *' bel m B (n0 + k) c) *' alpha); [|rewrite E; ring].
          assert (Hp : if right then pos (bsub B n1 l1) c q else pos (bsub B n1 l1) q c).
          { unfold PTrsm.bsub, PTrsm.bo in *. destruct right; split; cbn; lia. }
          destruct Hfl as (Fa & Ft).
          unfold PTrsm.bel at 1 2. unfold opdot, opA, opB, absf in V. rewrite Fa in V.
          clear - HR' Hp Ft V.
          destruct right eqn:Er; rewrite V by auto; f_equal; f_equal; apply vsum_ext; intros k Hk.
          + destruct Ft as (-> & ->). unfold PTrsm.bel, PTrsm.cblock, aij, PTrsm.bsub.
            destruct tt'; cbn [negb]; rewrite !subm_elt, ?Z.add_0_l; ring.
          + destruct Ft as (-> & ->). unfold PTrsm.bel, PTrsm.cblock, aij, PTrsm.bsub.
            destruct tt'; cbn [negb]; rewrite !subm_elt, ?Z.add_0_l; ring. }
        pose proof Hfl as (_ & Ft).
        assert (SH : if right then shapeA (bsub B n1 l1) (bsub B n0 l0) fl l0 /\ shapeB (bsub B n1 l1) (cblock A n1 l1 n0 l0) fl l0
                     else shapeA (bsub B n1 l1) (cblock A n1 l1 n0 l0) fl l0 /\ shapeB (bsub B n1 l1) (bsub B n0 l0) fl l0).
        { unfold shapeA, shapeB, PTrsm.bsub, PTrsm.cblock. destruct right, Ft as (-> & ->), tt'; cbn; auto. }
        destruct right; destruct SH as (S1 & S2).
        - apply (kernel_nc_wp K HR L _ _ _ alpha fl l0 ch); auto; try lia.
        - apply (kernel_nc_wp K HR L _ _ _ alpha fl l0 ch); auto; try lia.
      Qed.

      (* the rows that count for rows n1.. beside themselves *)
      Definition others A n1 l1 n0 l0 : Prop :=
        (xorb up tt' = false /\ n0 = 0 /\ l0 = n1) \/ (xorb up tt' = true /\ n0 = n1 + l1 /\ l0 = cols A - (n1 + l1)).

      Lemma sum_parts : forall m A n1 l1 n0 l0 q (x : Z -> T), others A n1 l1 n0 l0 -> 0 <= n1 -> 0 <= l1 -> n1 + l1 <= cols A -> 0 <= q < l1 ->
        vsum K (cols A) (fun k => optri K up un tt' m A (n1 + q) k *' x k) =
        vsum K l1 (fun k => optri K up un tt' m A (n1 + q) (n1 + k) *' x (n1 + k)) +'
        vsum K l0 (fun k => aij tt' m A (n1 + q) (n0 + k) *' x (n0 + k)).
      Proof.
        intros m A n1 l1 n0 l0 q x Hot H1 H2 H3 Hq.
        replace (cols A) with (n1 + (l1 + (cols A - (n1 + l1)))) by lia.
        rewrite (vsum_split K HR n1), (vsum_split K HR l1) by lia. destruct Hot as [(Hx & -> & ->)|(Hx & -> & ->)].
        - rewrite (vsum_zero K HR (cols A - (n1 + l1))) by (intros; rewrite (coef_low0 K) by (auto; lia); ring).
          rewrite (vsum_ext K n1 (fun k => optri K up un tt' m A (n1 + q) k *' x k) (fun k => aij tt' m A (n1 + q) (0 + k) *' x (0 + k))). ring.
          intros k Hk. rewrite (coef_low K) by (auto; lia). reflexivity.
        - rewrite (vsum_zero K HR n1) by (intros; rewrite (coef_up0 K) by (auto; lia); ring).
          rewrite (vsum_ext K (cols A - (n1 + l1)) (fun k => optri K up un tt' m A (n1 + q) (n1 + (l1 + k)) *' x (n1 + (l1 + k)))
            (fun k => aij tt' m A (n1 + q) (n1 + l1 + k) *' x (n1 + l1 + k))). ring.
          intros k Hk. rewrite (coef_up K) by (auto; lia). rewrite Z.add_assoc. reflexivity.
      Qed.

      Lemma piece_wp : forall B A n1 l1 n0 l0 alpha m0 m (p1 p2 : M T unit) (Q : unit -> (Z -> T) -> Prop),
        okk B A -> others A n1 l1 n0 l0 -> 0 <= n1 -> 0 < l1 -> n1 + l1 <= cols A ->
        chg B m0 m ->
        (forall q c, n1 <= q < n1 + l1 \/ n0 <= q < n0 + l0 -> 0 <= c < bo B -> bel m B q c = bel m0 B q c) ->
        mspec p1 alpha (bsub B n1 l1) (subm A n1 n1 l1 l1) ->
        (forall m (Q : unit -> (Z -> T) -> Prop), (forall m', added B A n1 l1 n0 l0 alpha m m' -> Q tt m') -> wp p2 L m Q) ->
        (forall m', chg B m0 m' ->
          (forall q c, n1 <= q < n1 + l1 -> 0 <= c < bo B -> bel m' B q c = prow B A up un tt' alpha m0 q c) ->
          (forall q c, 0 <= q < cols A -> 0 <= c < bo B -> q < n1 \/ n1 + l1 <= q -> bel m' B q c = bel m B q c) -> Q tt m') ->
        wp (p1 ;; p2) L m Q.
      Proof.
        intros B A n1 l1 n0 l0 alpha m0 m p1 p2 Q Hok Hot H1 H2 H3 Hc0 Hs P1 P2 HQ.
        pose proof Hok as (OB & OA & D & AB & AA & Sq & En & Hn & Ho). pose proof OB as (WB & _).
        assert (Hin : forall a, cell (bsub B n1 l1) a -> cell B a) by (intros a; apply bsub_in; auto; lia).
        assert (SAm : forall i j, pos A i j -> elt m A i j = elt m0 A i j) by (intros; eapply chg_elt; eauto).
        wbind. apply P1. intros m1 (V1 & C1). apply P2. intros m2 (V2 & C2).
        assert (C1' : chg B m m1) by (eapply chg_sub; eauto).
        assert (SA1 : forall i j, pos A i j -> elt m1 A i j = elt m0 A i j).
        { intros i j Hp. rewrite <- SAm by auto. eapply chg_elt; eauto. }
        assert (O1 : forall q c, 0 <= q < cols A -> 0 <= c < bo B -> q < n1 \/ n1 + l1 <= q -> bel m1 B q c = bel m B q c).
        { intros q c Hq Hc Hne. apply (chg_bel right ch B n1 l1); auto; lia. }
        assert (Hn0 : 0 <= n0 /\ 0 <= l0 /\ n0 + l0 <= cols A /\ (n1 + l1 <= n0 \/ n0 + l0 <= n1)) by (destruct Hot as [(_ & -> & ->)|(_ & -> & ->)]; lia).
        apply HQ.
        - eapply out3_trans; [exact Hc0|]. eapply out3_trans; [exact C1'|]. eapply chg_sub; eauto.
        - intros q c Hq Hc. replace q with (n1 + (q - n1)) by lia. set (r := q - n1) in *. assert (Hr : 0 <= r < l1) by lia. clearbody r. clear Hq q.
          rewrite V2 by auto. specialize (V1 r c ltac:(cbn; lia) ltac:(rewrite bo_sub; auto)). rewrite bsub_bel in V1. rewrite V1.
          unfold prow. rewrite (sum_parts m0 A n1 l1 n0 l0) by (auto; lia). cbn [armas_submatrix_unsafe armas_make cols].
          rewrite (vsum_ext K l1 _ (fun k => optri K up un tt' m0 A (n1 + r) (n1 + k) *' bel m0 B (n1 + k) c)).
          2:{ intros k Hk. rewrite bsub_bel, (coef_sub K). rewrite Hs by (auto; lia). f_equal. apply optri_same; auto; lia. }
          rewrite (vsum_ext K l0 _ (fun k => aij tt' m0 A (n1 + r) (n0 + k) *' bel m0 B (n0 + k) c)). ring.
          intros k Hk. rewrite O1 by (auto; lia). rewrite Hs by (auto; lia). f_equal. unfold aij.
          destruct tt'; apply SA1; split; lia.
        - intros q c Hq Hc Hne. rewrite <- O1 by auto. apply (chg_bel right ch B n1 l1); auto; lia.
      Qed.

      (* one block: the rest does not count *)
      Lemma final_wp : forall B A n1 l1 alpha m0 m (p : M T unit) (Q : unit -> (Z -> T) -> Prop),
        okk B A -> (xorb up tt' = false /\ n1 = 0) \/ (xorb up tt' = true /\ n1 + l1 = cols A) -> 0 <= n1 -> 0 < l1 -> n1 + l1 <= cols A ->
        chg B m0 m ->
        (forall q c, n1 <= q < n1 + l1 -> 0 <= c < bo B -> bel m B q c = bel m0 B q c) ->
        mspec p alpha (bsub B n1 l1) (subm A n1 n1 l1 l1) ->
        (forall m', chg B m0 m' ->
          (forall q c, n1 <= q < n1 + l1 -> 0 <= c < bo B -> bel m' B q c = prow B A up un tt' alpha m0 q c) ->
          (forall q c, 0 <= q < cols A -> 0 <= c < bo B -> q < n1 \/ n1 + l1 <= q -> bel m' B q c = bel m B q c) -> Q tt m') ->
        wp p L m Q.
      Proof.
        intros B A n1 l1 alpha m0 m p Q Hok Hot H1 H2 H3 Hc0 Hs P1 HQ.
        assert (W : wp (p ;; ret tt) L m Q).
        { apply (piece_wp B A n1 l1 (if xorb up tt' then n1 + l1 else 0) 0 alpha m0 m p (ret tt)); auto.
          - destruct Hot as [(Hx & ->)|(Hx & E)]; rewrite Hx; [left|right]; repeat split; auto; lia.
          - intros q c Hq Hc. apply Hs; auto; lia.
          - intros m1 Q' HQ'. apply wp_ret, HQ'. split; [|intros a _; reflexivity]. intros q c Hq Hc. rewrite vsum_0 by lia. ring. }
        destruct W as ([] & m' & E & V). rewrite run_bind in E. destruct (p L m) as [([] & m1)|] eqn:Ep; [|discriminate].
        cbn in E. injection E as <-. exists tt, m1. auto.
      Qed.

      Lemma two_low : forall B A h alpha p0 p1 p2, okk B A -> xorb up tt' = false -> 0 < h < cols A ->
        mspec p0 alpha (bsub B h (cols A - h)) (subm A h h (cols A - h) (cols A - h)) ->
        (forall m (Q : unit -> (Z -> T) -> Prop), (forall m', added B A h (cols A - h) 0 h alpha m m' -> Q tt m') -> wp p1 L m Q) ->
        mspec p2 alpha (bsub B 0 h) (subm A 0 0 h h) ->
        mspec (p0 ;; p1 ;; p2) alpha B A.
      Proof.
        intros B A h alpha p0 p1 p2 Hok Hx Hh P0 P1 P2 m Q HQ.
        assert (W : wp ((p0 ;; p1) ;; p2) L m Q).
        { wbind. apply (piece_wp B A h (cols A - h) 0 h alpha m m); auto; try lia.
          - left. auto.
          - intros a _. reflexivity.
          - intros m1 C1 V1 O1. apply (final_wp B A 0 h alpha m m1); auto; try lia.
            + intros q c Hq Hc. apply O1; auto; lia.
            + intros m2 C2 V2 O2. apply HQ. split; auto. intros q c Hq Hc. destruct (Z_lt_dec q h).
              * apply V2; auto; lia.
              * rewrite O2 by (auto; lia). apply V1; auto; lia. }
        destruct W as (r & m' & E & V). exists r, m'. split; [|exact V]. rewrite <- E. rewrite !run_bind.
        destruct (p0 L m) as [([] & m1)|]; [|reflexivity]. rewrite ?run_bind. reflexivity.
      Qed.

      Lemma two_up : forall B A h alpha p0 p1 p2, okk B A -> xorb up tt' = true -> 0 < h < cols A ->
        mspec p0 alpha (bsub B 0 h) (subm A 0 0 h h) ->
        (forall m (Q : unit -> (Z -> T) -> Prop), (forall m', added B A 0 h h (cols A - h) alpha m m' -> Q tt m') -> wp p1 L m Q) ->
        mspec p2 alpha (bsub B h (cols A - h)) (subm A h h (cols A - h) (cols A - h)) ->
        mspec (p0 ;; p1 ;; p2) alpha B A.
      Proof.
        intros B A h alpha p0 p1 p2 Hok Hx Hh P0 P1 P2 m Q HQ.
        assert (W : wp ((p0 ;; p1) ;; p2) L m Q).
        { wbind. apply (piece_wp B A 0 h h (cols A - h) alpha m m); auto; try lia.
          - right. auto.
          - intros a _. reflexivity.
          - intros m1 C1 V1 O1. apply (final_wp B A h (cols A - h) alpha m m1); auto; try lia.
            + right. split; auto; lia.
            + intros q c Hq Hc. apply O1; auto; lia.
            + intros m2 C2 V2 O2. apply HQ. split; auto. intros q c Hq Hc. destruct (Z_lt_dec q h).
              * rewrite O2 by (auto; lia). apply V1; auto; lia.
              * apply V2; auto; lia. }
        destruct W as (r & m' & E & V). exists r, m'. split; [|exact V]. rewrite <- E. rewrite !run_bind.
        destruct (p0 L m) as [([] & m1)|]; [|reflexivity]. rewrite ?run_bind. reflexivity.
      Qed.

      Lemma blk_low : forall B A alpha nb (body : Z -> M T unit), okk B A -> xorb up tt' = false -> 0 < nb ->
        (forall i, 0 < i <= cols A -> exists p1 p2, body i = (p1 ;; p2) /\
           mspec p1 alpha (bsub B (i - Z.min nb i) (Z.min nb i)) (subm A (i - Z.min nb i) (i - Z.min nb i) (Z.min nb i) (Z.min nb i)) /\
           (forall m (Q : unit -> (Z -> T) -> Prop),
              (forall m', added B A (i - Z.min nb i) (Z.min nb i) 0 (i - Z.min nb i) alpha m m' -> Q tt m') -> wp p2 L m Q)) ->
        mspec (for_step_down (cols A) nb body) alpha B A.
      Proof.
        intros B A alpha nb body Hok Hx Hnb HB m Q HQ.
        pose proof Hok as (OB & OA & D & AB & AA & Sq & En & Hn & Ho).
        unfold for_step_down.
        apply wp_for_step with (I := fun t m' => chg B m m' /\
          (forall q c, cols A - t <= q < cols A -> 0 <= c < bo B -> bel m' B q c = prow B A up un tt' alpha m q c) /\
          (forall q c, 0 <= q < cols A - t -> 0 <= c < bo B -> bel m' B q c = bel m B q c)); auto; try lia.
        - split; [intros a _; reflexivity|]. split; [intros; lia|auto].
        - intros t m2 Ht (C2 & V2 & R2). destruct (HB (cols A - t) ltac:(lia)) as (p1 & p2 & -> & P1 & P2).
          set (i := cols A - t) in *. assert (Hi : 0 < i <= cols A) by lia.
          replace (cols A - Z.min (t + nb) (cols A)) with (i - Z.min nb i) by lia. set (n := Z.min nb i) in *. assert (0 < n <= i) by lia.
          apply (piece_wp B A (i - n) n 0 (i - n) alpha m m2); auto; try lia.
          + left. auto.
          + intros q c Hq Hc. apply R2; auto; lia.
          + intros m3 C3 V3 O3. split; auto. split.
            * intros q c Hq Hc. destruct (Z_lt_dec q i); [apply V3; auto; lia|]. rewrite O3 by (auto; lia). apply V2; auto; lia.
            * intros q c Hq Hc. rewrite O3 by (auto; lia). apply R2; auto; lia.
        - intros m' (C2 & V2 & _). apply HQ. split; auto. intros q c Hq Hc. apply V2; auto; lia.
      Qed.

      Lemma blk_up : forall B A alpha nb (body : Z -> M T unit), okk B A -> xorb up tt' = true -> 0 < nb ->
        (forall i, 0 <= i < cols A -> exists p1 p2, body i = (p1 ;; p2) /\
           mspec p1 alpha (bsub B i (Z.min nb (cols A - i))) (subm A i i (Z.min nb (cols A - i)) (Z.min nb (cols A - i))) /\
           (forall m (Q : unit -> (Z -> T) -> Prop),
              (forall m', added B A i (Z.min nb (cols A - i)) (i + Z.min nb (cols A - i)) (cols A - (i + Z.min nb (cols A - i))) alpha m m' -> Q tt m') ->
              wp p2 L m Q)) ->
        mspec (for_step 0 (cols A) nb body) alpha B A.
      Proof.
        intros B A alpha nb body Hok Hx Hnb HB m Q HQ.
        pose proof Hok as (OB & OA & D & AB & AA & Sq & En & Hn & Ho).
        apply wp_for_step with (I := fun i m' => chg B m m' /\
          (forall q c, 0 <= q < i -> 0 <= c < bo B -> bel m' B q c = prow B A up un tt' alpha m q c) /\
          (forall q c, i <= q < cols A -> 0 <= c < bo B -> bel m' B q c = bel m B q c)); auto; try lia.
        - split; [intros a _; reflexivity|]. split; [intros; lia|auto].
        - intros i m2 Hi (C2 & V2 & R2). destruct (HB i Hi) as (p1 & p2 & -> & P1 & P2).
          replace (Z.min (i + nb) (cols A)) with (i + Z.min nb (cols A - i)) by lia. set (n := Z.min nb (cols A - i)) in *.
          assert (0 < n <= cols A - i) by lia.
          apply (piece_wp B A i n (i + n) (cols A - (i + n)) alpha m m2); auto; try lia.
          + right. auto.
          + intros q c Hq Hc. apply R2; auto; lia.
          + intros m3 C3 V3 O3. split; auto. split.
            * intros q c Hq Hc. destruct (Z_lt_dec q i); [|apply V3; auto; lia]. rewrite O3 by (auto; lia). apply V2; auto; lia.
            * intros q c Hq Hc. rewrite O3 by (auto; lia). apply R2; auto; lia.
        - intros m' (C2 & V2 & _). apply HQ. split; auto.
      Qed.

      Variable flags : Z.
      Hypothesis (Hlo : has flags ARMAS_LOWER = negb (has flags ARMAS_UPPER)).
      Hypotheses (Eup : up = has flags ARMAS_UPPER) (Eun : un = has flags ARMAS_UNIT)
        (Ett : tt' = xorb right (has flags ARMAS_TRANSA)) (Ert : right = has flags ARMAS_RIGHT).

      Lemma unb_spec : forall B A alpha, okk B A -> bo B < Z.of_nat fuel ->
        mspec (armas_trmm_unb K fuel blas2min B alpha A flags) alpha B A.
      Proof.
        intros B A alpha (OB & OA & D & AB & AA & Sq & En & Hn & Ho) Hf m Q HQ.
        apply (unb_wp B A) with (up := up) (un := un) (tt' := tt'); auto.
        intros m' V O. apply HQ. split; auto. intros a Ha _ _. apply O. exact Ha.
      Qed.

      (* the recursive functions split A into halves; which half is rounded up does not matter *)
      Lemma left_forward_spec : right = false -> xorb up tt' = true -> forall f B A alpha, okk B A -> bo B < Z.of_nat fuel ->
        cols A < Z.of_nat f -> mspec (mult_left_forward K fuel blas2min f B alpha A flags blas2min ch) alpha B A.
      Proof.
        intros Er Hx. assert (Et : tt' = negb up) by (destruct up, tt'; auto; discriminate).
        induction f as [|f IH]; intros B A alpha Hok Hf Hc.
        { destruct Hok as (_ & _ & _ & _ & _ & _ & _ & ? & _). lia. }
        pose proof (unb_spec B A alpha Hok Hf) as US.
        pose proof Hok as (OB & OA & D & AB & AA & Sq & En & Hn & Ho).
        cbn [mult_left_forward]. destruct (cols A <? blas2min) eqn:E1; [exact US|].
        assert (EB : forall n l, subm B n 0 l (cols B) = bsub B n l) by (intros; unfold PTrsm.bsub; rewrite Er; reflexivity).
        assert (ErB : rows B = cols A) by (rewrite <- En; unfold PTrsm.bn; rewrite Er; reflexivity).
        unfold mat_partition_2x2, mat_partition_2x1. rewrite ErB, Sq.
        pose proof (half (cols A) ltac:(lia)) as Hh. set (h := Z.quot (cols A) 2) in *.
        replace (h >? cols A) with false by Lia.lia. cbn [ATL ATR ABL ABR]. rewrite !EB.
        apply (two_up B A h alpha); auto.
        - apply IH; [apply okk_sub; auto; lia|rewrite bo_sub; auto|cbn; lia].
        - intros m Q HQ. rewrite <- Eup.
          pose proof (add_wp B A 0 h h (cols A - h) (if negb up then ARMAS_TRANSA else 0) alpha m Q Hok ltac:(lia) ltac:(lia) ltac:(lia)
            ltac:(lia) ltac:(lia) ltac:(lia) ltac:(lia) (kflags_left right tt' (negb up) (eq_sym Et) Er) HQ) as U.
          unfold PTrsm.cblock in U. rewrite Er, Et in U. rewrite Er. destruct up; exact U.
        - apply IH; [apply okk_sub; auto; lia|rewrite bo_sub; auto|cbn; lia].
      Qed.

      Lemma left_backward_spec : right = false -> xorb up tt' = false -> forall f B A alpha, okk B A -> bo B < Z.of_nat fuel ->
        cols A < Z.of_nat f -> mspec (mult_left_backward K fuel blas2min f B alpha A flags blas2min ch) alpha B A.
      Proof.
        intros Er Hx. assert (Et : tt' = up) by (destruct up, tt'; auto; discriminate).
        induction f as [|f IH]; intros B A alpha Hok Hf Hc.
        { destruct Hok as (_ & _ & _ & _ & _ & _ & _ & ? & _). lia. }
        pose proof (unb_spec B A alpha Hok Hf) as US.
        pose proof Hok as (OB & OA & D & AB & AA & Sq & En & Hn & Ho).
        cbn [mult_left_backward]. destruct (cols A <? blas2min) eqn:E1; [exact US|].
        assert (EB : forall n l, subm B n 0 l (cols B) = bsub B n l) by (intros; unfold PTrsm.bsub; rewrite Er; reflexivity).
        assert (ErB : rows B = cols A) by (rewrite <- En; unfold PTrsm.bn; rewrite Er; reflexivity).
        unfold mat_partition_2x2, mat_partition_2x1. rewrite ErB, Sq.
        pose proof (half (cols A) ltac:(lia)) as Hh. set (g := Z.quot (cols A) 2) in *.
        assert (Eg : exists h, g = cols A - h) by (exists (cols A - g); lia). destruct Eg as (h & Eg). clearbody g. subst g.
        replace (cols A - (cols A - h)) with h by lia.
        replace (cols A - h >? cols A) with false by Lia.lia. replace (cols A - (cols A - h)) with h by lia. cbn [ATL ATR ABL ABR]. rewrite !EB.
        apply (two_low B A h alpha); auto; try lia.
        - apply IH; [apply okk_sub; auto; lia|rewrite bo_sub; auto|cbn; lia].
        - intros m Q HQ. rewrite <- Eup.
          pose proof (add_wp B A h (cols A - h) 0 h (if up then ARMAS_TRANSA else 0) alpha m Q Hok ltac:(lia) ltac:(lia) ltac:(lia)
            ltac:(lia) ltac:(lia) ltac:(lia) ltac:(lia) (kflags_left right tt' up (eq_sym Et) Er) HQ) as U.
          unfold PTrsm.cblock in U. rewrite Er, Et in U. rewrite Er. destruct up; exact U.
        - apply IH; [apply okk_sub; auto; lia|rewrite bo_sub; auto|cbn; lia].
      Qed.

      Lemma right_forward_spec : right = true -> xorb up tt' = true -> forall f B A alpha, okk B A -> bo B < Z.of_nat fuel ->
        cols A < Z.of_nat f -> mspec (mult_right_forward K fuel blas2min f B alpha A flags blas2min ch) alpha B A.
      Proof.
        intros Er Hx. assert (Et : tt' = negb up) by (destruct up, tt'; auto; discriminate).
        induction f as [|f IH]; intros B A alpha Hok Hf Hc.
        { destruct Hok as (_ & _ & _ & _ & _ & _ & _ & ? & _). lia. }
        pose proof (unb_spec B A alpha Hok Hf) as US.
        pose proof Hok as (OB & OA & D & AB & AA & Sq & En & Hn & Ho).
        cbn [mult_right_forward]. destruct (cols A <? blas2min) eqn:E1; [exact US|].
        assert (EB : forall n l, subm B 0 n (rows B) l = bsub B n l) by (intros; unfold PTrsm.bsub; rewrite Er; reflexivity).
        assert (ErB : cols B = cols A) by (rewrite <- En; unfold PTrsm.bn; rewrite Er; reflexivity).
        unfold mat_partition_2x2, mat_partition_1x2. rewrite ErB, Sq.
        pose proof (half (cols A) ltac:(lia)) as Hh. set (h := Z.quot (cols A) 2) in *.
        replace (h >? cols A) with false by Lia.lia. cbn [ATL ATR ABL ABR]. rewrite !EB.
        apply (two_up B A h alpha); auto.
        - apply IH; [apply okk_sub; auto; lia|rewrite bo_sub; auto|cbn; lia].
        - intros m Q HQ. rewrite <- Eup.
          pose proof (add_wp B A 0 h h (cols A - h) (if negb up then 0 else ARMAS_TRANSB) alpha m Q Hok ltac:(lia) ltac:(lia) ltac:(lia)
            ltac:(lia) ltac:(lia) ltac:(lia) ltac:(lia) (kflags_right right tt' (negb up) (eq_sym Et) Er) HQ) as U.
          unfold PTrsm.cblock in U. rewrite Er, Et in U. rewrite Er. destruct up; exact U.
        - apply IH; [apply okk_sub; auto; lia|rewrite bo_sub; auto|cbn; lia].
      Qed.

      Lemma right_backward_spec : right = true -> xorb up tt' = false -> forall f B A alpha, okk B A -> bo B < Z.of_nat fuel ->
        cols A < Z.of_nat f -> mspec (mult_right_backward K fuel blas2min f B alpha A flags blas2min ch) alpha B A.
      Proof.
        intros Er Hx. assert (Et : tt' = up) by (destruct up, tt'; auto; discriminate).
        induction f as [|f IH]; intros B A alpha Hok Hf Hc.
        { destruct Hok as (_ & _ & _ & _ & _ & _ & _ & ? & _). lia. }
        pose proof (unb_spec B A alpha Hok Hf) as US.
        pose proof Hok as (OB & OA & D & AB & AA & Sq & En & Hn & Ho).
        cbn [mult_right_backward]. destruct (cols A <? blas2min) eqn:E1; [exact US|].
        assert (EB : forall n l, subm B 0 n (rows B) l = bsub B n l) by (intros; unfold PTrsm.bsub; rewrite Er; reflexivity).
        assert (ErB : cols B = cols A) by (rewrite <- En; unfold PTrsm.bn; rewrite Er; reflexivity).
        unfold mat_partition_2x2, mat_partition_1x2. rewrite ErB, Sq.
        pose proof (half (cols A) ltac:(lia)) as Hh. set (g := Z.quot (cols A) 2) in *.
        assert (Eg : exists h, g = cols A - h) by (exists (cols A - g); lia). destruct Eg as (h & Eg). clearbody g. subst g.
        replace (cols A - (cols A - h)) with h by lia.
        replace (cols A - h >? cols A) with false by Lia.lia. replace (cols A - (cols A - h)) with h by lia. cbn [ATL ATR ABL ABR]. rewrite !EB.
        apply (two_low B A h alpha); auto; try lia.
        - apply IH; [apply okk_sub; auto; lia|rewrite bo_sub; auto|cbn; lia].
        - intros m Q HQ. rewrite <- Eup.
          pose proof (add_wp B A h (cols A - h) 0 h (if up then 0 else ARMAS_TRANSB) alpha m Q Hok ltac:(lia) ltac:(lia) ltac:(lia)
            ltac:(lia) ltac:(lia) ltac:(lia) ltac:(lia) (kflags_right right tt' up (eq_sym Et) Er) HQ) as U.
          unfold PTrsm.cblock in U. rewrite Er, Et in U. rewrite Er. destruct up; exact U.
        - apply IH; [apply okk_sub; auto; lia|rewrite bo_sub; auto|cbn; lia].
      Qed.

      Lemma rec_spec : forall B A alpha, okk B A -> bo B < Z.of_nat fuel -> cols A < Z.of_nat fuel ->
        mspec (armas_trmm_recursive K fuel blas2min B alpha A flags ch) alpha B A.
      Proof.
        intros B A alpha Hok H1 H2.
        pose proof (fun E X => left_forward_spec E X fuel B A alpha Hok H1 H2) as F1.
        pose proof (fun E X => left_backward_spec E X fuel B A alpha Hok H1 H2) as F2.
        pose proof (fun E X => right_forward_spec E X fuel B A alpha Hok H1 H2) as F3.
        pose proof (fun E X => right_backward_spec E X fuel B A alpha Hok H1 H2) as F4.
        unfold armas_trmm_recursive. cbv zeta. rewrite trsm_switch, Hlo, <- Ert, <- Eup. rewrite Ett in F1, F2, F3, F4.
        destruct right, (has flags ARMAS_TRANSA), up;
          cbn [Z.eqb Z.add Z.lor ARMAS_RIGHT ARMAS_LOWER ARMAS_UPPER ARMAS_TRANSA negb orb Pos.add Pos.lor Pos.eqb]; auto.
      Qed.

      Hypothesis Habs : has flags ARMAS_ABSA = false.

      Lemma aflags0 : trmm_aflags flags = 0.
      Proof. unfold trmm_aflags. rewrite Habs. reflexivity. Qed.

      Lemma blk_spec : forall B A alpha, okk B A -> bo B < Z.of_nat fuel -> cols A < Z.of_nat fuel ->
        mspec (armas_trmm_blk K fuel blas2min B alpha A flags ch) alpha B A.
      Proof.
        intros B A alpha Hok Hf1 Hf2.
        pose proof Hok as (OB & OA & D & AB & AA & Sq & En & Hn & Ho).
        assert (Hnb : 0 < NB ch) by (destruct OK as (_ & ? & _); auto).
        assert (RS : forall n l, 0 <= n -> 0 < l -> n + l <= cols A ->
          mspec (armas_trmm_recursive K fuel blas2min (bsub B n l) alpha (subm A n n l l) flags ch) alpha (bsub B n l) (subm A n n l l)).
        { intros n l Q1 Q2 Q3. apply rec_spec; [apply okk_sub; auto|rewrite bo_sub; auto|cbn; lia]. }
        assert (E2 : forall i, (if cols A - i <? NB ch then cols A - i else NB ch) = Z.min (NB ch) (cols A - i))
          by (intros i; destruct (cols A - i <? NB ch) eqn:E; lia).
        assert (E3 : forall i, (if i <? NB ch then i else NB ch) = Z.min (NB ch) i) by (intros i; destruct (i <? NB ch) eqn:E; lia).
        assert (E4 : forall i n, cols A - i - n = cols A - (i + n)) by (intros; lia).
        pose proof (fun n1 l1 n0 l0 fl m Q => add_wp B A n1 l1 n0 l0 fl alpha m Q Hok) as AW.
        pose proof (blk_low B A alpha (NB ch)) as BL. pose proof (blk_up B A alpha (NB ch)) as BU.
        unfold armas_trmm_blk. rewrite <- Ert, <- Eup.
        destruct right eqn:Er.
        - assert (EB : forall n l, subm B 0 n (rows B) l = PTrsm.bsub true B n l) by reflexivity.
          assert (ErB : cols B = cols A) by exact En.
          pose proof (kflags_right true tt') as KF.
          destruct up eqn:Eu, (has flags ARMAS_TRANSA); rewrite Ett in *; cbn [xorb] in *.
          + unfold trmm_blk_ru_trans. rewrite aflags0. cbv zeta. apply BU; auto. intros i Hi. eexists. eexists. split; [reflexivity|].
            rewrite E2, ErB, !E4, !EB. split; [apply RS; auto; lia|].
            intros m Q HQ. apply (AW _ _ _ _ (ARMAS_TRANSB)); auto; try lia. apply (KF false); auto.
          + unfold trmm_blk_r_upper. rewrite aflags0. cbv zeta. apply BL; auto. intros i Hi. eexists. eexists. split; [reflexivity|].
            rewrite E3, !EB. split; [apply RS; auto; lia|].
            intros m Q HQ. apply (AW _ _ _ _ 0); auto; try lia. apply (KF true); auto.
          + unfold trmm_blk_rl_trans. rewrite aflags0. cbv zeta. apply BL; auto. intros i Hi. eexists. eexists. split; [reflexivity|].
            rewrite E3, !EB. split; [apply RS; auto; lia|].
            intros m Q HQ. apply (AW _ _ _ _ (ARMAS_TRANSB)); auto; try lia. apply (KF false); auto.
          + unfold trmm_blk_r_lower. rewrite aflags0. cbv zeta. apply BU; auto. intros i Hi. eexists. eexists. split; [reflexivity|].
            rewrite E2, ErB, !E4, !EB. split; [apply RS; auto; lia|].
            intros m Q HQ. apply (AW _ _ _ _ 0); auto; try lia. apply (KF true); auto.
        - assert (EB : forall n l, subm B n 0 l (cols B) = PTrsm.bsub false B n l) by reflexivity.
          assert (ErB : rows B = cols A) by exact En.
          pose proof (kflags_left false tt') as KF.
          destruct up eqn:Eu, (has flags ARMAS_TRANSA); rewrite Ett in *; cbn [xorb] in *.
          + unfold trmm_blk_u_trans. rewrite aflags0. cbv zeta. apply BL; auto. intros i Hi. eexists. eexists. split; [reflexivity|].
            rewrite E3, !EB. split; [apply RS; auto; lia|].
            intros m Q HQ. apply (AW _ _ _ _ (ARMAS_TRANSA)); auto; try lia. apply (KF true); auto.
          + unfold trmm_blk_upper. rewrite aflags0. cbv zeta. rewrite Sq. apply BU; auto. intros i Hi. eexists. eexists. split; [reflexivity|].
            rewrite E2, ErB, !E4, !EB. split; [apply RS; auto; lia|].
            intros m Q HQ. apply (AW _ _ _ _ 0); auto; try lia. apply (KF false); auto.
          + unfold trmm_blk_l_trans. rewrite aflags0. cbv zeta. rewrite Sq. apply BU; auto. intros i Hi. eexists. eexists. split; [reflexivity|].
            rewrite E2, !E4, !EB. split; [apply RS; auto; lia|].
            intros m Q HQ. apply (AW _ _ _ _ (ARMAS_TRANSA)); auto; try lia. apply (KF true); auto.
          + unfold trmm_blk_lower. rewrite aflags0. cbv zeta. apply BL; auto. intros i Hi. eexists. eexists. split; [reflexivity|].
            rewrite E3, !EB. split; [apply RS; auto; lia|].
            intros m Q HQ. apply (AW _ _ _ _ 0); auto; try lia. apply (KF false); auto.
      Qed.
    End Rec.
  End Side.
End P.
