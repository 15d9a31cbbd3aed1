(* PQrBld.v: forming the orthogonal matrix of a QR factorization. *)
From Coq Require Import ZArith Lia Bool ZifyBool Ring Field.
From Verif Require Import Mem MView SpecView PView PSub Hoare MFlags MBase MCopy PUpd PCopy
  MNum SpecNum MBlas1 PSum PBlas1 MElem PElem MBlas2 PMvec PBlas2 PFrame SpecTrm MTrm PTrm MGemm PGemm PMatcpy PMult
  MTrsm PTrsm MTrmm PTrmm PNorm MLap PUpdTrm PLap MHouse SpecHouse SpecQr PHouse MQr PQrA PQrB PQr PQrT PUpdQr PQrF MQrMul PQrMul MQrBld
  Properties_Gemm Properties_Elem.
Local Open Scope Z_scope.
Local Open Scope prog_scope.

Ltac lia := nobool; zlia.

(* what changes only a block of A leaves the rest of A *)
Lemma sub_keep : forall {T} A r c nr nc (m m' : Z -> T) i j, wf A -> inA A r c nr nc -> only_changes (subm A r c nr nc) m m' -> pos A i j ->
  ~ inb r c nr nc i j -> elt m' A i j = elt m A i j.
Proof. intros T A r c nr nc m m' i j WA I O P N. unfold elt. apply O. apply subm_notin; auto. Qed.

Local Ltac nows := let a := fresh "a" in intros a ? ?;
  match goal with nA : forall a, cell ?A a -> ~ ws ?b ?n a, nt : forall a, cell ?t a -> ~ ws ?b ?n a, nb : forall a, inbuf _ _ a -> ~ ws ?b ?n a |- _ =>
    first [solve [apply (nA a); auto] | solve [apply (nt a); auto] | solve [apply (nb a); auto]] end.

Section Q.
  Context {T : Type} (K : num T).
  Hypotheses (HF : is_field K) (HE : eqb_ok K).
  Let HR : is_ring K := Field_theory.F_R HF.
  Let HR' : ring_theory (zero K) (one K) (add K) (mul K) (sub K) (opp K) eq := HR.
  Add Ring KringB : HR'.
  Local Notation "0'" := (zero K).
  Local Notation "1'" := (one K).

  Definition unit_v (j : Z) : Z -> T := fun r => if r =? j then 1' else 0'.

  Lemma stepf_ext : forall A fwd a a' t t' k l z z' i, 0 <= k -> 0 <= l -> 0 <= i < rows A ->
    (forall r q, k <= q < k + l -> q < r < rows A -> a r q = a' r q) -> (forall q, k <= q < k + l -> t q = t' q) ->
    (forall r, 0 <= r < rows A -> z r = z' r) -> stepf K A fwd a t k l z i = stepf K A fwd a' t' k l z' i.
  Proof.
    intros A fwd a a' t t' k l z z' i Hk Hl Hi Ha Ht Hz. unfold stepf. destruct (i <? k) eqn:E; auto.
    destruct fwd; [apply (qtapply_ext K)|apply (qapply_ext K)]; try lia; rewrite ?Z2Nat.id by lia; intros; first [apply Ha; lia|apply Ht; lia|apply Hz; lia].
  Qed.

  Lemma stepf_app : forall A a t k l l' z i, 0 <= k -> 0 <= l -> 0 <= l' -> k + l + l' <= rows A -> 0 <= i < rows A ->
    stepf K A false a t k (l + l') z i = stepf K A false a t k l (stepf K A false a t (k + l) l' z) i.
  Proof.
    intros A a t k l l' z i Hk Hl Hl' HM Hi. unfold stepf at 1 2. destruct (i <? k) eqn:E.
    - unfold stepf. replace (i <? k + l) with true by lia. reflexivity.
    - rewrite Z2Nat.inj_add by lia. rewrite (qapply_app K HF) by (rewrite ?Z2Nat.id by lia; lia). rewrite Z2Nat.id by lia.
      apply (qapply_ext K); auto; [|lia]. intros r Hr. unfold stepf. replace (k + r <? k + l) with (r <? l) by lia.
      destruct (r <? l) eqn:Er; auto. replace (rows A - (k + l)) with (rows A - k - l) by lia. replace (k + r - (k + l)) with (r - l) by lia.
      apply (qapply_ext K); try lia; intros; f_equal; lia.
  Qed.

  (* the reflectors from k on leave the first k unit vectors *)
  Lemma stepf_unit : forall A a t k l j i, j < k -> 0 <= k -> 0 <= i < rows A -> stepf K A false a t k l (unit_v j) i = unit_v j i.
  Proof.
    intros A a t k l j i Hj Hk Hi. unfold stepf. destruct (i <? k) eqn:E; auto. rewrite (qapply_zero K HF); [|intros r Hr|lia].
    - unfold unit_v. replace (i =? j) with false by lia. reflexivity.
    - unfold unit_v. replace (k + r =? j) with false by lia. reflexivity.
  Qed.

  Lemma stepf_col : forall A a t k i, 0 <= k < rows A -> 0 <= i < rows A ->
    stepf K A false a t k 1 (unit_v k) i = if i <? k then 0' else if i =? k then sub K 1' (t k) else mul K (a i k) (opp K (t k)).
  Proof.
    intros A a t k i Hk Hi. rewrite <- (hmap_step K HF A false) by lia. unfold hmap, reflect.
    assert (X : inner K (rows A) (hvec K a k) (unit_v k) = 1').
    { rewrite (inner_sym K HF). unfold unit_v. rewrite (inner_unit K HF) by lia. unfold hvec. replace (k <? k) with false by lia. replace (k =? k) with true by lia. reflexivity. }
    rewrite X. unfold unit_v, hvec. destruct (i <? k) eqn:E1; [replace (i =? k) with false by lia; ring|]. destruct (i =? k) eqn:E2; ring.
  Qed.

  Lemma stepf_qmat : forall A a t l j i, 0 <= i < rows A -> stepf K A false a t 0 l (unit_v j) i = qmat K (rows A) a t (Z.to_nat l) i j.
  Proof.
    intros A a t l j i Hi. unfold stepf, qmat. replace (i <? 0) with false by lia. rewrite !Z.sub_0_r. reflexivity.
  Qed.

  (* the identity in a block *)
  Lemma unit_wp : forall L A m (Q : Z -> (Z -> T) -> Prop), mok L A -> 0 < rows A -> 0 < cols A ->
    (forall m', (forall i j, pos A i j -> elt m' A i j = unit_v j i) -> only_changes A m m' -> Q 0 m') ->
    wp (qrbuild_unit K A) L m Q.
  Proof.
    intros L A m Q OA Hr Hc HQ. unfold qrbuild_unit. wbind.
    destruct (mscale_all K L m A 0' 0) as (m1 & S1 & S2 & S3); auto; try apply OA; try discriminate.
    exists 0, m1. split; [exact S1|]. assert (WA : wf A) by apply OA.
    destruct (diag_spec A 0) as (D1 & D2 & D3 & D4 & D5 & _); auto; try lia. cbn [Z.max Z.opp] in *.
    set (D := armas_diag A 0) in *. change (Z.max 0 (- 0)) with 0 in *. change (Z.max 0 0) with 0 in *. rewrite !Z.sub_0_r in *.
    assert (VD : isvec D) by (left; auto). assert (lD : vlen D = Z.min (rows A) (cols A)) by (unfold vlen; rewrite D1, D2; lia).
    destruct (C11_madd_vector T K L m1 D 1' 0) as (m2 & R1 & R2 & R3); auto.
    { intros a Ha. apply OA. auto. }
    exists 0, m2. split; [exact R1|]. rewrite lD in R2. apply HQ.
    - intros i j (Hi & Hj). unfold unit_v. destruct (i =? j) eqn:Eij.
      + assert (i = j) as -> by lia. specialize (R2 j ltac:(lia)). rewrite !D3 in R2 by lia. rewrite !Z.add_0_l in R2. rewrite R2. rewrite S2 by (split; lia). ring.
      + transitivity (elt m1 A i j); [|rewrite S2 by (split; lia); ring]. unfold elt. apply R3. intros (i' & j' & (P1 & P2) & P3). 
        rewrite D1 in P1. rewrite D2 in P2. 
        assert (X : velt (fun a => a) D j' = elt (fun a => a) A j' j') by (rewrite D3 by lia; reflexivity).
        unfold velt, vec_pos, elt in X. rewrite D1 in X. change (1 =? 1) with true in X. cbv iota in X. cbn [fst snd] in X.
        assert (Y : i = j' /\ j = j') by (apply (pos_inj A); auto; [split; lia|split; lia|]; assert (i' = 0) by lia; subst i'; lia). lia.
    - intros a Ha. rewrite R3 by auto. apply S3. auto.
  Qed.

  Section U.
    Variables (E : lenv) (L : Z -> bool) (A tau : view) (kk : Z).
    Local Notation M := (rows A).
    Local Notation N := (cols A).
    Hypotheses (OA : mok L A) (OT : mok L tau) (DAt : disjoint A tau).
    Hypotheses (Ct : cols tau = 1) (Rt : rows tau = N) (HMN : N <= M) (Hkk : 0 <= kk <= N).
    Hypotheses (Hf : M < Z.of_nat (e_fuel E)) (HB : b2_ok E).

    (* columns from k on are done, the others as they were *)
    Definition done (a : Z -> Z -> T) (t : Z -> T) (k : Z) (a' : Z -> Z -> T) : Prop :=
      (forall i j, 0 <= i < M -> k <= j < N -> a' i j = stepf K A false a t k (kk - k) (unit_v j) i) /\
      (forall i j, 0 <= i < M -> 0 <= j < k -> a' i j = a i j).

    Lemma unblk_build_wp : forall W mk nk may m (Q : Z -> (Z -> T) -> Prop), mk = M - kk -> nk = N - kk -> (kk < N -> may = true) ->
      mok L (wvec (N - 1) W) -> disjoint (wvec (N - 1) W) A -> disjoint (wvec (N - 1) W) tau ->
      (forall m', (forall i j, pos A i j -> elt m' A i j = qmat K M (elt m A) (fun q => elt m tau q 0) (Z.to_nat kk) i j) ->
         (forall a, ~ cell A a -> ~ cell (wvec (N - 1) W) a -> m' a = m a) -> Q 0 m') ->
      wp (unblk_qrbuild K E A tau W mk nk may) L m Q.
    Proof.
      intros W mk nk may m Q Emk Enk Hmay OW DWA DWt HQ. assert (WA : wf A) by apply OA. assert (WT : wf tau) by apply OT.
      set (a := elt m A). set (t := fun q => elt m tau q 0).
      assert (Hwt : forall (m1 m2 : Z -> T), (forall a, ~ cell A a -> ~ cell (wvec (N - 1) W) a -> m2 a = m1 a) -> forall q, 0 <= q < N -> elt m2 tau q 0 = elt m1 tau q 0).
      { intros m1 m2 H q Hq. assert (X : cell tau (elems tau + 0 * step tau + q)) by (exists q, 0; split; [split; lia|reflexivity]).
        unfold elt. apply H; intros Y; [apply (DAt (elems tau + 0 * step tau + q))|apply (DWt (elems tau + 0 * step tau + q))]; auto. }
      unfold unblk_qrbuild. cbv zeta. wbind. unfold mat_partition_2x2. cbn [ATL ATR ABR]. subst mk nk.
      replace (M - (M - kk)) with kk by lia. replace (N - (N - kk)) with kk by lia.
      assert (Hinit : wp (when ((N - kk >? 0) && may) (armas_mscale K (subm A 0 kk kk (N - kk)) 0' 0 ;; qrbuild_unit K (subm A kk kk (M - kk) (N - kk)) ;; ret tt)) L m
        (fun _ m' => done a t kk (elt m' A) /\ (forall x, ~ cell A x -> m' x = m x))).
      { destruct (Z.eq_dec kk N) as [Ek|Ek].
        - replace (N - kk >? 0) with false by Lia.lia. cbn [andb when]. apply wp_ret. split; [split|]; auto. intros; lia.
        - rewrite Hmay by lia. replace (N - kk >? 0) with true by Lia.lia. cbn [andb when].
          assert (i1 : inA A 0 kk kk (N - kk)) by (repeat split; lia). assert (i2 : inA A kk kk (M - kk) (N - kk)) by (repeat split; lia).
          wbind. destruct (mscale_all K L m (subm A 0 kk kk (N - kk)) 0' 0) as (m1 & S1 & S2 & S3); auto; try apply (V_ok L A OA); auto; try discriminate.
          exists 0, m1. split; [exact S1|]. wbind. apply unit_wp; [apply (V_ok L A OA); auto|cbn [rows armas_submatrix_unsafe armas_make]; lia|cbn [cols armas_submatrix_unsafe armas_make]; lia|].
          intros m2 U1 U2. apply wp_ret. split; [split|].
          + intros i j Hi Hj. unfold stepf. rewrite Z.sub_diag. cbn [Z.to_nat qapply]. destruct (i <? kk) eqn:Ei.
            * rewrite (sub_keep A kk kk (M - kk) (N - kk) m1 m2) by (auto; try (split; lia); unfold inb; lia).
              specialize (S2 i (j - kk)). rewrite !V_elt in S2. rewrite Z.add_0_l in S2. replace (kk + (j - kk)) with j in S2 by lia.
              rewrite S2 by (split; cbn [rows cols armas_submatrix_unsafe armas_make]; lia). unfold unit_v. replace (i =? j) with false by lia. ring.
            * specialize (U1 (i - kk) (j - kk)). rewrite V_elt in U1. replace (kk + (i - kk)) with i in U1 by lia. replace (kk + (j - kk)) with j in U1 by lia.
              rewrite U1 by (split; cbn [rows cols armas_submatrix_unsafe armas_make]; lia). unfold unit_v. replace (kk + (i - kk) =? j) with (i - kk =? j - kk) by lia. reflexivity.
          + intros i j Hi Hj. rewrite (sub_keep A kk kk (M - kk) (N - kk) m1 m2), (sub_keep A 0 kk kk (N - kk) m m1); auto; try (split; lia); unfold inb; lia.
          + intros x Hx. rewrite U2, S3; auto; intros X; apply Hx; revert X; apply (V_in L A OA); auto. }
      eapply wp_conseq; [exact Hinit|]. cbv beta. intros _ m0 ((D1 & D2) & F0). wbind.
      unfold mat_partition_2x1. rewrite Rt, Ct. replace (N - kk >? N) with false by Lia.lia. cbn [fst]. replace (N - (N - kk)) with kk by lia.
      apply (wp_up L A 1 _ (fun k s m' => s = subm tau 0 0 k 1 /\ k <= kk /\ done a t k (elt m' A) /\
          (forall x, ~ cell A x -> ~ cell (wvec (N - 1) W) x -> m' x = m x))); try lia.
      - split; [reflexivity|]. split; [lia|]. split; [split; auto|]. auto.
      - intros q s m1 Hq (-> & Hqk & (I1 & I2) & IF). cbv zeta. replace (Z.min 1 q) with 1 by lia. set (k := q - 1).
        assert (Eq : q = k + 1) by lia. clearbody k. subst q.
        unfold b3at. cbn [A01 A11 A21 A12 A22]. unfold mat_repartition_2x1to3x1. cbn [rows armas_submatrix_unsafe armas_make].
        replace (k + 1 <? 1) with false by lia. replace (k + 1 - 1) with k by lia. rewrite Ct.
        change (mkview (elems tau + (0 * step tau + k)) (step tau) 1 1) with (subm tau k 0 1 1).
        change (mkview (elems tau + (0 * step tau + 0)) (step tau) k 1) with (subm tau 0 0 k 1).
        set (a12 := subm A k (k + 1) 1 (N - k - 1)). set (AA := subm A (k + 1) (k + 1) (M - k - 1) (N - k - 1)).
        set (a21 := subm A (k + 1) k (M - k - 1) 1). set (a01 := subm A 0 k k 1). set (a11 := subm A k k 1 1).
        change (armas_make (cols a12) 1 (cols a12) (elems W)) with (wvec (N - k - 1) W).
        set (C := subm A 0 (k + 1) M (N - k - 1)). set (AL := subm A 0 0 M (k + 1)).
        assert (iC : inA A 0 (k + 1) M (N - k - 1)) by (repeat split; lia). assert (iL : inA A 0 0 M (k + 1)) by (repeat split; lia).
        assert (i21 : inA A (k + 1) k (M - k - 1) 1) by (repeat split; lia). assert (i01 : inA A 0 k k 1) by (repeat split; lia).
        assert (it : inA tau k 0 1 1) by (repeat split; lia).
        assert (CA : forall x, cell C x -> cell A x) by (intros x; apply (V_in L A OA); auto).
        assert (LA : forall x, cell AL x -> cell A x) by (intros x; apply (V_in L A OA); auto).
        assert (wW : forall x, cell (wvec (N - k - 1) W) x -> cell (wvec (N - 1) W) x) by (intros x; apply wvec_sub; lia).
        wbind.
        assert (Eh : armas_apply_householder2x1 K E (Some (subm tau k 0 1 1)) a21 a12 AA (wvec (N - k - 1) W) ARMAS_LEFT =
          armas_apply_householder2x1 K E (Some (subm tau k 0 1 1)) (subm AL (k + 1) k (rows AL - k - 1) 1) (Cp true C k 1) (Cp true C (k + 1) (rows AL - k - 1)) (wvec (N - k - 1) W) ARMAS_LEFT).
        { unfold Cp, AL, C, a21, a12, AA. rewrite !sub_sub. cbn [rows cols armas_submatrix_unsafe armas_make]. rewrite !Z.add_0_l, !Z.add_0_r. reflexivity. }
        rewrite Eh. apply (ustep_wp K HF HE true E L C AL tau (N - k - 1)); auto.
        { apply (V_ok L A OA); auto. }
        { apply (V_ok L A OA); auto. }
        { intros x X1 X2. assert (X : disjoint AL C) by (apply (V_disj L A OA); auto; lia). apply (X x); auto. }
        { change (cols AL) with (k + 1). lia. }
        { change (cols AL) with (k + 1). change (rows AL) with M. lia. }
        { lia. }
        { change (cols AL) with (k + 1). lia. }
        { destruct (wvec_vok (N - 1) (N - k - 1) W L); auto. lia. }
        { intros x X1 X2. apply (DWA x); auto. }
        { intros x X1 X2. apply (DWA x); auto. }
        { intros x X1 X2. apply (DWt x); auto. }
        intros m2 U F2. change (rows AL) with M in U. change (oel true m1 C) with (elt m1 C) in U.
        assert (t1q : forall q, 0 <= q < N -> elt m1 tau q 0 = t q) by (apply Hwt; auto).
        assert (t2q : forall q, 0 <= q < N -> elt m2 tau q 0 = t q).
        { intros q Hq'. rewrite <- t1q by auto. apply (Hwt m1 m2); auto. }
        assert (G2 : forall i j, 0 <= i < M -> 0 <= j < k + 1 -> elt m2 A i j = a i j).
        { intros i j Hi Hj. rewrite <- I2 by lia. unfold elt. apply F2.
          - apply subm_notin; auto; [split; lia|unfold inb; lia].
          - intros X. apply (DWA (elems A + j * step A + i)); auto. exists i, j. split; [split; lia|reflexivity]. }
        assert (H2 : forall i j, 0 <= i < M -> k + 1 <= j < N -> elt m2 A i j = stepf K A false a t k (kk - k) (unit_v j) i).
        { intros i j Hi Hj. specialize (U i (j - (k + 1)) ltac:(lia) ltac:(lia)). unfold oel, C in U. rewrite V_elt in U. rewrite Z.add_0_l in U.
          replace (k + 1 + (j - (k + 1))) with j in U by lia. rewrite U. rewrite (hmap_step K HF A false) by lia.
          replace (kk - k) with (1 + (kk - (k + 1))) by lia. rewrite stepf_app by lia.
          apply stepf_ext; auto; try lia.
          - intros r q Hq' Hr. unfold AL. rewrite V_elt, !Z.add_0_l. apply I2; lia.
          - intros q Hq'. apply t1q. lia.
          - intros r Hr. rewrite V_elt, Z.add_0_l. replace (k + 1 + (j - (k + 1))) with j by lia. apply I1; lia. }
        wbind. apply (get_blk_wp K E L tau); auto. rewrite t2q by lia.
        wbind. assert (V21 : vok L a21) by (split; [right; reflexivity|]; apply (V_ok L A OA); auto).
        assert (V01 : vok L a01) by (split; [right; reflexivity|]; apply (V_ok L A OA); auto).
        apply (scale_wp K); auto. intros m3 S3 O3. wbind. apply set1_wp; auto; [split; lia|]. intros m4 S4 S4' O4.
        wbind. apply (scale_wp K); auto. intros m5 S5 O5. apply wp_ret.
        assert (l21 : vlen a21 = M - k - 1) by apply (col_len A). assert (l01 : vlen a01 = k) by apply (col_len A). rewrite l21 in S3. rewrite l01 in S5.
        assert (K3 : forall i j, pos A i j -> ~ inb (k + 1) k (M - k - 1) 1 i j -> elt m3 A i j = elt m2 A i j) by (intros; apply (sub_keep A (k + 1) k (M - k - 1) 1); auto).
        assert (K5 : forall i j, pos A i j -> ~ inb 0 k k 1 i j -> elt m5 A i j = elt m4 A i j) by (intros; apply (sub_keep A 0 k k 1); auto).
        try replace (k + 1 - 1) with k by lia. split; [|split; [lia|split; [split|]]].
        + unfold mat_continue_3x1to2x1. rewrite Ct. reflexivity.
        + intros i j Hi Hj. destruct (Z.eq_dec j k) as [->|Hne].
          * replace (kk - k) with (1 + (kk - (k + 1))) by lia. rewrite stepf_app by lia.
            transitivity (stepf K A false a t k 1 (unit_v k) i).
            2:{ apply stepf_ext; auto; try lia. intros r Hr. symmetry. apply stepf_unit; lia. }
            rewrite stepf_col by lia. destruct (i <? k) eqn:Ei.
            -- specialize (S5 i ltac:(lia)). unfold a01 in S5. rewrite (col_velt A m5) in S5 by lia. rewrite Z.add_0_l in S5. rewrite S5. ring.
            -- rewrite K5 by (try (split; lia); unfold inb; lia). destruct (i =? k) eqn:Ei2.
               ++ assert (i = k) as -> by lia. exact S4.
               ++ rewrite S4' by (try (split; lia); intros [= X]; lia). specialize (S3 (i - (k + 1)) ltac:(lia)). unfold a21 in S3.
                  rewrite !(col_velt A) in S3 by lia. replace (k + 1 + (i - (k + 1))) with i in S3 by lia. rewrite S3. rewrite G2 by lia. reflexivity.
          * rewrite K5, S4', K3; auto; try (split; lia); try (unfold inb; lia); [|intros [= _ X]; lia]. apply H2; lia.
        + intros i j Hi Hj. rewrite K5, S4', K3; auto; try (split; lia); try (unfold inb; lia); [|intros [= _ X]; lia]. apply G2; lia.
        + intros x X1 X2. rewrite O5, O4, O3, F2, IF; auto.
          * intros X. apply X1. revert X. apply (V_in L A OA). auto.
          * intros X. apply X1. revert X. apply (V_in L A OA). auto.
      - intros s m1 (_ & _ & (I1 & _) & IF). apply wp_ret. apply HQ; auto. intros i j (Hi & Hj). rewrite I1 by lia. rewrite Z.sub_0_r. apply stepf_qmat. lia.
    Qed.
  End U.

  Lemma blk_build_wp : forall (E : lenv) L cb A tau lb b n kk m (Q : Z -> (Z -> T) -> Prop),
    cfg_ok E L cb -> rows A < Z.of_nat (e_fuel E) ->
    mok L A -> mok L tau -> cols tau = 1 -> rows tau = cols A -> cols A <= rows A -> 0 <= kk <= cols A -> 0 < lb < cols A -> cols A * lb <= n ->
    (forall a, ws b n a -> L a = true /\ ~ cell A a /\ ~ cell tau a /\ ~ inbuf cb (e_p E) a) ->
    disjoint A tau -> clear_of cb (e_p E) A -> clear_of cb (e_p E) tau ->
    (cols A = rows A -> elt m tau (cols A - 1) 0 = 0') ->
    (forall q i, 0 <= q < kk -> q < i < rows A -> elt m tau q 0 = 0' -> elt m A i q = 0') ->
    (forall m', (forall i j, pos A i j -> elt m' A i j = qmat K (rows A) (elt m A) (fun q => elt m tau q 0) (Z.to_nat kk) i j) ->
       (forall a, ~ cell A a -> ~ ws b n a -> ~ inbuf cb (e_p E) a -> m' a = m a) -> Q 0 m') ->
    wp (blk_qrbuild K E A tau (armas_make lb lb lb b) (armas_make (cols A - lb) lb (cols A - lb) (b + lb * lb)) kk lb) L m Q.
  Proof.
    intros E L cb A tau lb b n kk m Q HC HfM OA OT Ct Rt HMN Hkk Hlb Hn HW DAt cA ct Hlast Hz HQ. set (kb := kk - Z.rem kk lb).
    set (M := rows A) in *. set (N := cols A) in *.
    assert (HB1 : 0 <= e_b1 E) by apply HC. assert (HB2 : 2 <= e_b2 E) by apply HC.
    assert (WA : wf A) by apply OA. assert (WT : wf tau) by apply OT.
    set (Tv := armas_make lb lb lb b). set (W := armas_make (N - lb) lb (N - lb) (b + lb * lb)).
    set (a := elt m A). set (t := fun q => elt m tau q 0).
    assert (wT : forall x, cell Tv x -> ws b n x) by (intros x Hx; apply (make_ws lb lb b n); auto; nia).
    assert (wW : forall x r c, 0 <= r -> r * c <= (N - lb) * lb -> cell (armas_make r c r (b + lb * lb)) x -> ws b n x).
    { intros x r c Hr Hc Hx. apply (make_ws r c _ ((N - lb) * lb)) in Hx; auto. unfold ws in *. nia. }
    assert (OTv : mok L Tv) by (apply (make_mok lb lb b n); try nia; intros x Hx; apply HW; auto).
    assert (OWr : forall r c, 0 <= r -> 0 <= c -> r * c <= (N - lb) * lb -> mok L (armas_make r c r (b + lb * lb))).
    { intros r c Hr Hc Hrc. apply (make_mok r c _ ((N - lb) * lb)); auto. intros x Hx. apply HW. unfold ws in *; nia. }
    assert (DTW : forall r c, 0 <= r -> r * c <= (N - lb) * lb -> disjoint (armas_make r c r (b + lb * lb)) Tv).
    { intros r c Hr Hrc x X1 X2. apply (make_ws r c _ ((N - lb) * lb)) in X1; auto. apply (make_ws lb lb b (lb * lb)) in X2; try lia. unfold ws in *. lia. }
    assert (nA : forall x, cell A x -> ~ ws b n x) by (intros x X1 X2; destruct (HW x X2) as (_ & X & _); auto).
    assert (nt : forall x, cell tau x -> ~ ws b n x) by (intros x X1 X2; destruct (HW x X2) as (_ & _ & X & _); auto).
    assert (nb : forall x, inbuf cb (e_p E) x -> ~ ws b n x) by (intros x X1 X2; destruct (HW x X2) as (_ & _ & _ & X); auto).
    assert (ctau : forall q, 0 <= q < N -> cell tau (elems tau + 0 * step tau + q)) by (intros q Hq; exists q, 0; split; [split; lia|reflexivity]).
    (* the vector of the unblocked code fits *)
    assert (Hw1 : forall c, 0 <= c <= N - 1 -> c * 1 <= (N - lb) * lb) by (intros c Hc; nia).
    assert (ww : forall c x, 0 <= c <= N - 1 -> cell (wvec c W) x -> ws b n x) by (intros c x Hc; apply (wW x c 1); auto; lia).
    assert (wok : forall c, 0 <= c <= N - 1 -> mok L (wvec c W)) by (intros c Hc; apply (OWr c 1); auto; lia).
    set (uk := Z.rem kk lb) in *. assert (Huk : 0 <= uk < lb) by (apply Z.rem_bound_pos; lia).
    assert (Hkb : exists c, 0 <= c /\ kb = c * lb).
    { exists (Z.quot kk lb). split; [apply Z.quot_pos; lia|]. unfold kb, uk. pose proof (Z.quot_rem' kk lb). lia. }
    assert (Hkb0 : 0 <= kb <= kk) by (destruct Hkb as (c & X1 & X2); nia).
    unfold blk_qrbuild. cbv zeta. fold M N uk. unfold mat_partition_2x2, mat_partition_2x1. cbn [ATL ATR ABR]. fold M N. rewrite Rt, Ct. fold N.
    replace (N - kk + uk) with (N - kb) by lia. replace (M - kk + uk) with (M - kb) by lia. replace (N - kb >? N) with false by Lia.lia.
    replace (M - (M - kb)) with kb by lia. replace (N - (N - kb)) with kb by lia. wbind.
    assert (Hinit : wp (when (N - kb >? 0) (armas_mscale K (subm A 0 kb kb (N - kb)) 0' 0 ;;
        (if uk >? 0 then unblk_qrbuild K E (subm A kb kb (M - kb) (N - kb)) (subm tau kb 0 (N - kb) 1) W
             (rows (subm A kb kb (M - kb) (N - kb)) - uk) (cols (subm A kb kb (M - kb) (N - kb)) - uk) true
         else qrbuild_unit K (subm A kb kb (M - kb) (N - kb))) ;; ret tt)) L m
      (fun _ m' => done A kk a t kb (elt m' A) /\ (forall x, ~ cell A x -> ~ cell (wvec (N - kb - 1) W) x -> m' x = m x))).
    { destruct (Z.eq_dec kb N) as [Ek|Ek].
      - replace (N - kb >? 0) with false by Lia.lia. cbn [when]. apply wp_ret. split; [split|]; auto. fold N. intros; lia.
      - replace (N - kb >? 0) with true by Lia.lia. cbn [when].
        assert (i1 : inA A 0 kb kb (N - kb)) by (repeat split; fold M; fold N; lia). assert (i2 : inA A kb kb (M - kb) (N - kb)) by (repeat split; fold M; fold N; lia).
        assert (it : inA tau kb 0 (N - kb) 1) by (repeat split; lia).
        wbind. destruct (mscale_all K L m (subm A 0 kb kb (N - kb)) 0' 0) as (m1 & S1 & S2 & S3); auto; try apply (V_ok L A OA); auto; try discriminate.
        exists 0, m1. split; [exact S1|]. wbind. set (B := subm A kb kb (M - kb) (N - kb)).
        assert (BA : forall x, cell B x -> cell A x) by (intros x; apply (V_in L A OA); auto).
        assert (K1 : forall i j, pos A i j -> ~ inb 0 kb kb (N - kb) i j -> elt m1 A i j = a i j) by (intros; apply (sub_keep A 0 kb kb (N - kb)); auto).
        assert (F1 : forall x, ~ cell A x -> m1 x = m x) by (intros x Hx; apply S3; intros X; apply Hx; revert X; apply (V_in L A OA); auto).
        assert (Hlow : forall m2 : Z -> T, (forall x, ~ cell B x -> ~ cell (wvec (N - kb - 1) W) x -> m2 x = m1 x) -> 
          (forall i j, 0 <= i < kb -> kb <= j < N -> elt m2 A i j = 0') /\ (forall i j, 0 <= i < M -> 0 <= j < kb -> elt m2 A i j = a i j) /\
          (forall x, ~ cell A x -> ~ cell (wvec (N - kb - 1) W) x -> m2 x = m x)).
        { intros m2 F2. assert (K2 : forall i j, pos A i j -> ~ inb kb kb (M - kb) (N - kb) i j -> elt m2 A i j = elt m1 A i j).
          { intros i j Hp Hi. unfold elt. apply F2; [apply subm_notin; auto|]. intros X. apply ww in X; [|fold N; lia]. revert X. apply nA. exists i, j. auto. }
          split; [|split].
          - intros i j Hi Hj. rewrite K2 by (try (split; fold M; fold N; lia); unfold inb; lia). specialize (S2 i (j - kb)). rewrite !V_elt in S2.
            rewrite Z.add_0_l in S2. replace (kb + (j - kb)) with j in S2 by lia. rewrite S2 by (split; cbn [rows cols armas_submatrix_unsafe armas_make]; lia). ring.
          - intros i j Hi Hj. rewrite K2, K1; auto; try (split; fold M; fold N; lia); unfold inb; lia.
          - intros x X1 X2. rewrite F2, F1; auto. }
        assert (Hdone : forall m2 : Z -> T, (forall x, ~ cell B x -> ~ cell (wvec (N - kb - 1) W) x -> m2 x = m1 x) ->
          (forall i j, pos B i j -> elt m2 B i j = stepf K A false a t kb uk (unit_v (kb + j)) (kb + i)) ->
          done A kk a t kb (elt m2 A) /\ (forall x, ~ cell A x -> ~ cell (wvec (N - kb - 1) W) x -> m2 x = m x)).
        { intros m2 F2 H2. destruct (Hlow m2 F2) as (X1 & X2 & X3). split; [split|exact X3].
          - fold M N. intros i j Hi Hj. replace (kk - kb) with uk by lia. destruct (Z_lt_ge_dec i kb) as [Hik|Hik].
            + rewrite X1 by lia. unfold stepf. replace (i <? kb) with true by lia. unfold unit_v. replace (i =? j) with false by lia. reflexivity.
            + specialize (H2 (i - kb) (j - kb)). unfold B in H2 at 2. rewrite V_elt in H2. replace (kb + (i - kb)) with i in H2 by lia. replace (kb + (j - kb)) with j in H2 by lia.
              apply H2. split; cbn [rows cols B armas_submatrix_unsafe armas_make]; lia.
          - fold M. intros i j Hi Hj. apply X2; lia. }
        destruct (uk >? 0) eqn:Euk.
        + apply (unblk_build_wp E L B (subm tau kb 0 (N - kb) 1) uk); auto.
          { apply (V_ok L A OA); auto. }
          { apply (V_ok L tau OT); auto. }
          { intros x X1 X2. apply (DAt x); auto. revert X2. apply (V_in L tau OT). auto. }
          { cbn [rows cols B armas_submatrix_unsafe armas_make]. lia. }
          { cbn [rows cols B armas_submatrix_unsafe armas_make]. lia. }
          { cbn [rows cols B armas_submatrix_unsafe armas_make]. lia. }
          { cbn [rows cols B armas_submatrix_unsafe armas_make]. apply wok. lia. }
          { cbn [rows cols B armas_submatrix_unsafe armas_make]. intros x X1 X2. apply (nA x); auto. apply ww in X1; auto. lia. }
          { cbn [rows cols B armas_submatrix_unsafe armas_make]. intros x X1 X2. apply (nt x); [revert X2; apply (V_in L tau OT); auto|]. apply ww in X1; auto. lia. }
          intros m2 U2 F2. apply wp_ret. change (cols B) with (N - kb) in F2. change (rows B) with (M - kb) in U2. apply Hdone; auto.
          intros i j (Hi & Hj). change (rows B) with (M - kb) in Hi. change (cols B) with (N - kb) in Hj. rewrite U2 by (split; auto).
          unfold qmat, stepf. fold M. replace (kb + i <? kb) with false by lia. replace (kb + i - kb) with i by lia.
          apply (qapply_ext K); rewrite ?Z2Nat.id by lia; auto.
          * intros r q Hq Hr. unfold B. rewrite V_elt. apply K1; [split; fold M; fold N; lia|unfold inb; lia].
          * intros q Hq. rewrite V_elt. unfold t, elt. apply F1. intros X. apply (DAt (elems tau + (0 + 0) * step tau + (kb + q))); auto. apply ctau. lia.
          * intros r Hr. unfold unit_v. replace (kb + r =? kb + j) with (r =? j) by lia. reflexivity.
        + assert (E0 : uk = 0) by Lia.lia. apply unit_wp; [apply (V_ok L A OA); auto|cbn [rows B armas_submatrix_unsafe armas_make]; lia|cbn [cols B armas_submatrix_unsafe armas_make]; lia|].
          intros m2 U2 F2. apply wp_ret. apply Hdone; auto.
          intros i j (Hi & Hj). change (rows B) with (M - kb) in Hi. rewrite U2 by (split; auto). unfold stepf. rewrite E0. cbn [Z.to_nat qapply].
          replace (kb + i <? kb) with false by lia. unfold unit_v. replace (kb + (kb + i - kb) =? kb + j) with (i =? j) by lia. reflexivity. }
    eapply wp_conseq; [exact Hinit|]. cbv beta. intros _ m0 (D0 & F0). wbind.
    assert (F0' : forall x, ~ cell A x -> ~ ws b n x -> m0 x = m x).
    { intros x X1 X2. destruct (Z.eq_dec kb N) as [Ek|Ek]; apply F0; auto.
      - intros (i & j & (Y1 & Y2) & _). unfold wvec in Y1. cbn [rows armas_make] in Y1. lia.
      - intros Y. apply X2. revert Y. apply ww. lia. }
    apply (wp_up L A lb _ (fun k s m' => s = subm tau 0 0 k 1 /\ (k <= kb /\ exists c, 0 <= c /\ k = c * lb) /\ done A kk a t k (elt m' A) /\
        (forall x, ~ cell A x -> ~ ws b n x -> ~ inbuf cb (e_p E) x -> m' x = m x))); try lia.
    - split; [reflexivity|]. split; [split; [lia|exact Hkb]|]. split; [exact D0|]. auto.
    - intros q s m1 Hq (-> & (Hqk & (c & Hc0 & Hc)) & (I1 & I2) & IF). cbv zeta. assert (Hc1 : 1 <= c) by (destruct (Z.eq_dec c 0) as [X|X]; [rewrite X in Hc; lia|lia]).
      assert (Hql : lb <= q) by (rewrite Hc; clear - Hc1 Hlb; nia). replace (Z.min lb q) with lb by lia.
      set (k := q - lb). assert (Eq : q = k + lb) by lia. assert (Hck : k = (c - 1) * lb) by (unfold k; rewrite Hc; ring). clearbody k. clear Hc. subst q. fold M N in I1, I2.
      assert (Hk0 : 0 <= k) by lia.
      unfold b3at. cbn [A01 A11 A21 A12 A22]. fold M; fold N. unfold mat_repartition_2x1to3x1. cbn [rows armas_submatrix_unsafe armas_make].
      replace (k + lb <? lb) with false by lia. replace (k + lb - lb) with k by lia. rewrite Ct.
      change (mkview (elems tau + (0 * step tau + k)) (step tau) lb 1) with (subm tau k 0 lb 1).
      change (mkview (elems tau + (0 * step tau + 0)) (step tau) k 1) with (subm tau 0 0 k 1).
      change (mkview (elems A + (k * step A + k)) (step A) lb lb) with (subm A k k lb lb).
      rewrite merge_col' by (fold M; lia). fold M.
      set (AL := subm A k k (M - k) lb). set (t1 := subm tau k 0 lb 1).
      set (C1 := subm A k (k + lb) lb (N - k - lb)). set (C2 := subm A (k + lb) (k + lb) (M - k - lb) (N - k - lb)).
      set (Y1 := subm A k k lb lb). set (Y2 := subm A (k + lb) k (M - k - lb) lb). set (A01' := subm A 0 k k lb).
      assert (iAL : inA A k k (M - k) lb) by (repeat split; fold M; fold N; lia). assert (it : inA tau k 0 lb 1) by (repeat split; lia).
      assert (iC1 : inA A k (k + lb) lb (N - k - lb)) by (repeat split; fold M; fold N; lia).
      assert (iC2 : inA A (k + lb) (k + lb) (M - k - lb) (N - k - lb)) by (repeat split; fold M; fold N; lia).
      assert (iY1 : inA A k k lb lb) by (repeat split; fold M; fold N; lia). assert (iY2 : inA A (k + lb) k (M - k - lb) lb) by (repeat split; fold M; fold N; lia).
      assert (i01 : inA A 0 k k lb) by (repeat split; fold M; fold N; lia).
      assert (ALA : forall x, cell AL x -> cell A x) by (intros x; apply (V_in L A OA); auto).
      assert (t1t : forall x, cell t1 x -> cell tau x) by (intros x; apply (V_in L tau OT); auto).
      assert (C1A : forall x, cell C1 x -> cell A x) by (intros x; apply (V_in L A OA); auto).
      assert (C2A : forall x, cell C2 x -> cell A x) by (intros x; apply (V_in L A OA); auto).
      assert (Y1A : forall x, cell Y1 x -> cell A x) by (intros x; apply (V_in L A OA); auto).
      assert (Y2A : forall x, cell Y2 x -> cell A x) by (intros x; apply (V_in L A OA); auto).
      assert (kt : forall mm : Z -> T, (forall x, ~ cell A x -> ~ ws b n x -> ~ inbuf cb (e_p E) x -> mm x = m x) -> forall q, 0 <= q < N -> elt mm tau q 0 = t q).
      { intros mm H q Hq'. unfold t, elt. apply H; intros Y.
        - apply (DAt (elems tau + 0 * step tau + q)); auto.
        - apply (nt (elems tau + 0 * step tau + q)); auto.
        - apply (ct (elems tau + 0 * step tau + q)); auto. }
      wbind. apply (refl_wp K HF HE); auto.
      { change (rows AL) with (M - k). lia. }
      { change (cols AL) with lb. lia. }
      { apply (V_ok L A OA); auto. }
      { apply (V_ok L tau OT); auto. }
      { change (rows t1) with lb. change (cols AL) with lb. lia. }
      { change (rows AL) with (M - k). change (cols AL) with lb. lia. }
      { change (rows Tv) with lb. change (cols AL) with lb. lia. }
      { change (cols Tv) with lb. change (cols AL) with lb. lia. }
      { nows. }
      { nows. }
      { change (rows AL) with (M - k). change (cols AL) with lb. intros X1 _. unfold t1. rewrite V_elt. rewrite (kt m1) by (auto; lia).
        replace (k + (lb - 1)) with (N - 1) by lia. apply Hlast. lia. }
      change (rows AL) with (M - k). change (cols AL) with lb.
      intros m2 Tc _ O2.
      assert (Et1 : forall q, 0 <= q < lb -> elt m1 t1 q 0 = t (k + q)) by (intros q Hq'; unfold t1; rewrite V_elt; apply kt; auto; lia).
      assert (EAL : forall i q, 0 <= i < M - k -> 0 <= q < lb -> elt m1 AL i q = a (k + i) (k + q)) by (intros i q Hi Hq'; unfold AL; rewrite V_elt; apply I2; lia).
      assert (kp2 : forall (V : view) i j, (forall x, cell V x -> ~ ws b n x) -> pos V i j -> elt m2 V i j = elt m1 V i j).
      { intros V i j HV Hp. unfold elt. apply O2. intros Hx. apply (HV (elems V + j * step V + i)); auto. exists i, j. auto. }
      wbind. set (Wr := armas_make (N - k - lb) lb (N - k - lb) (elems W)).
      assert (EWr : Wr = armas_make (N - k - lb) lb (N - k - lb) (b + lb * lb)) by reflexivity.
      assert (nWr : (N - k - lb) * lb <= (N - lb) * lb) by nia.
      assert (Wrw : forall x, cell Wr x -> ws b n x) by (intros x; rewrite EWr; apply wW; lia).
      change (armas_update_qr_left K E C1 C2 Y1 Y2 Tv Wr false) with (upd_prog K E true C1 C2 Y1 Y2 Tv Wr false).
      apply (update_wp K HR HE E L cb HC true C1 C2 Y1 Y2 Tv Wr lb (M - k - lb) (N - k - lb)).
      1-4: apply (V_ok L A OA); auto.
      { exact OTv. }
      { rewrite EWr. apply OWr; lia. }
      1-4: intros x X1 X2; apply (cA x); auto.
      { nows. }
      { nows. }
      all: match goal with |- disjoint _ _ => first [solve [nows] | solve [apply (V_disj L A OA); auto; lia] | rewrite EWr; apply DTW; lia] | _ => idtac end.
      1-6: split; reflexivity.
      1-3: lia.
      { lia. }
      { lia. }
      intros m3 U F3. cbn [Bool.eqb] in U. replace (lb + (M - k - lb)) with (M - k) in U by lia.
      assert (G3 : forall i j, pos A i j -> ~ inb k (k + lb) (M - k) (N - k - lb) i j -> elt m3 A i j = elt m1 A i j).
      { intros i j Hp Hn'. assert (cell A (elems A + j * step A + i)) by (exists i, j; auto). rewrite <- (kp2 A) by auto. unfold elt. apply F3.
        - apply subm_notin; auto. unfold inb in *; lia.
        - apply subm_notin; auto. unfold inb in *; lia.
        - intros X. apply (nA (elems A + j * step A + i)); auto.
        - intros X. apply (cA (elems A + j * step A + i)); auto. }
      assert (IF3 : forall x, ~ cell A x -> ~ ws b n x -> ~ inbuf cb (e_p E) x -> m3 x = m x) by (intros x X1 X2 X3; rewrite F3, O2, IF; auto).
      assert (R3 : forall i j, 0 <= i < M -> k + lb <= j < N -> elt m3 A i j = stepf K A false a t k (kk - k) (unit_v j) i).
      { intros i j Hi Hj. replace (kk - k) with (lb + (kk - (k + lb))) by lia. rewrite stepf_app by (fold M; lia). unfold stepf at 1. fold M. destruct (i <? k) eqn:Eik.
        - rewrite G3 by (try (split; fold M; fold N; lia); unfold inb; lia). apply I1; lia.
        - specialize (U (i - k) (j - (k + lb)) ltac:(lia) ltac:(lia)).
          assert (E3 : forall (mm : Z -> T) r, 0 <= r < M - k -> stack true C1 C2 lb mm r (j - (k + lb)) = elt mm A (k + r) j).
          { intros mm r Hr'. unfold stack, oel, C1, C2. rewrite !V_elt. destruct (r <? lb) eqn:X; f_equal; lia. }
          rewrite E3 in U by lia. replace (k + (i - k)) with i in U by lia. rewrite U. symmetry.
          transitivity (qapply K (M - k) (elt m1 AL) (fun q => elt m1 t1 q 0) (Z.to_nat lb) (fun r => elt m1 A (k + r) j) (i - k)).
          { apply (qapply_ext K); rewrite ?Z2Nat.id by lia; auto; try lia.
            - intros r q Hq' Hr. symmetry. apply EAL; lia.
            - intros q Hq'. symmetry. apply Et1; lia.
            - intros r Hr. symmetry. apply I1; lia. }
          rewrite (T_cols_q K HF HE _ lb _ _ (elt m1 Tv) (elt m2 Tv)); [|exact Tc|lia| | |lia].
          2:{ intros q r Hq' Hr X. rewrite Et1 in X by lia. rewrite EAL by lia. apply Hz; auto; lia. }
          2:{ intros q Hq' _. rewrite I1 by lia. unfold stepf. replace (k + q <? k + lb) with true by lia. unfold unit_v. replace (k + q =? j) with false by lia. reflexivity. }
          apply (bapply_ext K); auto; [| |intros r Hr; rewrite E3 by auto; symmetry; apply kp2; auto; split; fold M; fold N; lia|lia].
          + intros q r Hq' Hr. apply (hvec_ext K (M - k)); auto. intros r' Hr'. unfold AL. rewrite V_elt. rewrite <- (kp2 A) by (auto; split; fold M; fold N; lia).
            unfold ystack, Y1, Y2. rewrite !V_elt. destruct (r' <? lb) eqn:X; f_equal; lia.
          + intros q p Hq' Hp. apply upper_tri. }
      wbind. apply (unblk_build_wp E L AL t1 lb); auto.
      { apply (V_ok L A OA); auto. }
      { apply (V_ok L tau OT); auto. }
      { intros x X1 X2. apply (DAt x); auto. }
      { change (cols AL) with lb. change (rows AL) with (M - k). lia. }
      { change (cols AL) with lb. lia. }
      { change (rows AL) with (M - k). lia. }
      { change (cols AL) with lb. lia. }
      { change (cols AL) with lb. intros; lia. }
      { change (cols AL) with lb. apply wok. lia. }
      { change (cols AL) with lb. intros x X1 X2. apply (nA x); auto. apply ww in X1; auto. lia. }
      { change (cols AL) with lb. intros x X1 X2. apply (nt x); auto. apply ww in X1; auto. lia. }
      change (cols AL) with lb. change (rows AL) with (M - k). intros m4 U4 F4.
      assert (F4' : forall x, ~ cell AL x -> ~ ws b n x -> m4 x = m3 x) by (intros x X1 X2; apply F4; auto; intros X; apply X2; revert X; apply ww; lia).
      assert (G4 : forall i j, pos A i j -> ~ inb k k (M - k) lb i j -> elt m4 A i j = elt m3 A i j).
      { intros i j Hp Hn'. assert (cell A (elems A + j * step A + i)) by (exists i, j; auto). unfold elt. apply F4'; [apply subm_notin; auto|apply nA; auto]. }
      wbind. destruct (mscale_all K L m4 A01' 0' 0) as (m5 & S1 & S2 & S3); auto; try apply (V_ok L A OA); auto; try discriminate.
      exists 0, m5. split; [exact S1|]. apply wp_ret.
      assert (G5 : forall i j, pos A i j -> ~ inb 0 k k lb i j -> elt m5 A i j = elt m4 A i j) by (intros; apply (sub_keep A 0 k k lb); auto).
      assert (A01A : forall x, cell A01' x -> cell A x) by (intros x; apply (V_in L A OA); auto).
      split; [|split; [split; [lia|exists (c - 1); split; [lia|exact Hck]]|split; [split|]]].
      + unfold mat_continue_3x1to2x1. rewrite Ct. reflexivity.
      + fold M N. intros i j Hi Hj. destruct (Z_lt_ge_dec j (k + lb)) as [Hjk|Hjk].
        * replace (kk - k) with (lb + (kk - (k + lb))) by lia. rewrite stepf_app by (fold M; lia).
          transitivity (stepf K A false a t k lb (unit_v j) i).
          2:{ apply stepf_ext; auto; try (fold M; lia). fold M. intros r Hr. symmetry. apply stepf_unit; fold M; lia. }
          unfold stepf. fold M. destruct (i <? k) eqn:Eik.
          -- specialize (S2 i (j - k)). unfold A01' in S2. rewrite !V_elt in S2. rewrite Z.add_0_l in S2. replace (k + (j - k)) with j in S2 by lia.
             rewrite S2 by (split; cbn [rows cols armas_submatrix_unsafe armas_make]; lia). unfold unit_v. replace (i =? j) with false by lia. ring.
          -- rewrite G5 by (try (split; fold M; fold N; lia); unfold inb; lia). specialize (U4 (i - k) (j - k)). unfold AL in U4 at 2. rewrite V_elt in U4.
             replace (k + (i - k)) with i in U4 by lia. replace (k + (j - k)) with j in U4 by lia. rewrite U4 by (split; cbn [AL rows cols armas_submatrix_unsafe armas_make]; lia).
             unfold qmat. apply (qapply_ext K); rewrite ?Z2Nat.id by lia; auto; try lia.
             ++ intros r q Hq' Hr. rewrite <- EAL by lia. unfold AL. rewrite !V_elt. apply G3; [split; fold M; fold N; lia|unfold inb; lia].
             ++ intros q Hq'. unfold t1. rewrite V_elt. apply kt; auto; lia.
             ++ intros r Hr. unfold unit_v. replace (k + r =? j) with (r =? j - k) by lia. reflexivity.
        * rewrite G5, G4 by (try (split; fold M; fold N; lia); unfold inb; lia). apply R3; lia.
      + fold M N. intros i j Hi Hj. rewrite G5, G4, G3 by (try (split; fold M; fold N; lia); unfold inb; lia). apply I2; lia.
      + intros x X1 X2 X3. rewrite S3, F4', IF3; auto.
    - intros s m1 (_ & _ & (I1 & _) & IF). apply wp_ret. apply HQ; auto. fold M N in I1. intros i j (Hi & Hj). rewrite I1 by (fold M in Hi; fold N in Hj; lia).
      rewrite Z.sub_0_r. apply stepf_qmat. exact Hi.
  Qed.
End Q.
