(* PQrF.v: the blocked QR factorization. *)
From Coq Require Import ZArith Lia Bool ZifyBool Ring Field.
From Verif Require Import Mem MView SpecView PView PSub Hoare MFlags MBase MCopy PUpd PCopy
  MNum SpecNum MBlas1 PSum PBlas1 MElem PElem MBlas2 PMvec PBlas2 PFrame SpecTrm MTrm PTrm MGemm PGemm PMatcpy PMult
  MTrsm PTrsm MTrmm PTrmm PNorm MLap PUpdTrm PLap MHouse SpecHouse SpecQr PHouse MQr PQrA PQrB PQr PQrT PUpdQr
  Properties_Gemm.
Local Open Scope Z_scope.
Local Open Scope prog_scope.

Ltac lia := nobool; zlia.

(* the n elements from b on *)
Definition ws (b n a : Z) : Prop := b <= a < b + n.

Lemma make_ws : forall r c b n a, 0 <= r -> r * c <= n -> cell (armas_make r c r b) a -> ws b n a.
Proof. intros r c b n a Hr Hn (i & j & (H1 & H2) & ->). unfold armas_make in *. cbn [rows cols elems step] in *. unfold ws. nia. Qed.

Lemma make_mok : forall r c b n L, 0 <= r -> 0 <= c -> r * c <= n -> (forall a, ws b n a -> L a = true) -> mok L (armas_make r c r b).
Proof. intros r c b n L Hr Hc Hn HL. split; [repeat split; cbn; lia|]. intros a Ha. apply HL. apply (make_ws r c b n); auto. Qed.

Local Ltac nows := let a := fresh "a" in intros a ? ?;
  match goal with nA : forall a, cell ?A a -> ~ ws ?b ?n a, nt : forall a, cell ?t a -> ~ ws ?b ?n a, nb : forall a, inbuf _ _ a -> ~ ws ?b ?n a |- _ =>
    first [solve [apply (nA a); auto] | solve [apply (nt a); auto] | solve [apply (nb a); auto]] end.

Section Q.
  Context {T : Type} (K : num T).
  Hypotheses (HF : is_field K) (HO : is_ordered K) (HE : eqb_ok K) (HS : sqrt_ok K).
  Let HR : is_ring K := Field_theory.F_R HF.
  Let HR' : ring_theory (zero K) (one K) (add K) (mul K) (sub K) (opp K) eq := HR.
  Add Ring KringF : HR'.
  Local Notation "0'" := (zero K).
  Local Notation "1'" := (one K).

  Lemma qr_inv_ext : forall M N k a0 a0' a a' t t', k <= N -> (forall i j, 0 <= i < M -> 0 <= j < N -> a0 i j = a0' i j) ->
    (forall i j, 0 <= i < M -> 0 <= j < N -> a i j = a' i j) -> (forall q, 0 <= q < k -> t q = t' q) ->
    qr_inv K M N k a0 a t -> qr_inv K M N k a0' a' t'.
  Proof.
    intros M N k a0 a0' a a' t t' Hk H0 Ha Ht (I1 & I2 & I3). split; [|split].
    - intros i j Hi Hj. rewrite <- H0, I1 by auto. apply (qapply_ext K); auto.
      + intros r q Hq Hr. apply Ha; lia.
      + intros q Hq. apply Ht. lia.
      + intros r Hr. unfold todo. destruct (_ && _); auto.
    - intros q Hq. rewrite <- Ht by auto. apply (tok_ext K M _ (hvec K a q)); auto. intros i Hi. apply (hvec_ext K M); auto. intros. apply Ha; lia.
    - destruct I3 as (I3 & I4). split; [intros X1 X2; rewrite <- Ht by lia; auto|].
      intros q i Hq Hi. rewrite <- Ht, <- Ha by lia. auto.
  Qed.

  Lemma merge_col : forall A k l, 0 < l -> k + l < rows A ->
    mat_merge2x1 (subm A k k l l) (subm A (k + l) k (rows A - k - l) l) = subm A k k (rows A - k) l.
  Proof.
    intros A k l Hl Hk. unfold mat_merge2x1, armas_size. cbn [rows cols armas_submatrix_unsafe armas_make].
    replace (l * l =? 0) with false by nia. replace ((rows A - k - l) * l =? 0) with false by nia. cbn [andb].
    unfold armas_submatrix_unsafe, armas_make. cbn [rows cols step elems]. f_equal. lia.
  Qed.

  Lemma blk_qr_wp : forall (E : lenv) safmin steps L cb A tau lb b n m (Q : Z -> (Z -> T) -> Prop),
    cfg_ok E L cb -> rows A < Z.of_nat (e_fuel E) ->
    ltb K 0' safmin = true -> steps_ok K safmin steps ->
    mok L A -> mok L tau -> cols tau = 1 -> cols A <= rows tau -> cols A <= rows A -> 0 < lb < cols A -> cols A * lb <= n ->
    (forall a, ws b n a -> L a = true /\ ~ cell A a /\ ~ cell tau a /\ ~ inbuf cb (e_p E) a) ->
    disjoint A tau -> clear_of cb (e_p E) A -> clear_of cb (e_p E) tau ->
    (forall m', let t' := fun q => elt m' tau q 0 in
       qr_inv K (rows A) (cols A) (cols A) (elt m A) (elt m' A) t' -> nn_diag K E (cols A) (elt m' A) t' ->
       (forall q, cols A <= q < rows tau -> elt m' tau q 0 = elt m tau q 0) ->
       (forall a, ~ cell A a -> ~ cell tau a -> ~ ws b n a -> ~ inbuf cb (e_p E) a -> m' a = m a) -> Q 0 m') ->
    wp (blk_qrfactor K E safmin steps A tau (armas_make lb lb lb b) (armas_make (cols A - lb) lb (cols A - lb) (b + lb * lb)) lb) L m Q.
  Proof.
    intros E safmin steps L cb A tau lb b n m Q HC HfM Hsp Hst OA OT Ct Rt HMN Hlb Hn HW DAt cA ct HQ.
    set (M := rows A) in *. set (N := cols A) in *.
    assert (HB1 : 0 <= e_b1 E) by apply HC. assert (HB2 : 2 <= e_b2 E) by apply HC.
    assert (WA : wf A) by apply OA. assert (WT : wf tau) by apply OT.
    set (Tv := armas_make lb lb lb b). set (W := armas_make (N - lb) lb (N - lb) (b + lb * lb)).
    assert (wT : forall a, cell Tv a -> ws b n a) by (intros a Ha; apply (make_ws lb lb b n); auto; nia).
    assert (wW : forall a r c, 0 <= r -> r * c <= (N - lb) * lb -> cell (armas_make r c r (b + lb * lb)) a -> ws b n a).
    { intros a r c Hr Hc Ha. apply (make_ws r c _ ((N - lb) * lb)) in Ha; auto. unfold ws in *. nia. }
    assert (OTv : mok L Tv) by (apply (make_mok lb lb b n); try nia; intros a Ha; apply HW; auto).
    assert (OWr : forall r c, 0 <= r -> 0 <= c -> r * c <= (N - lb) * lb -> mok L (armas_make r c r (b + lb * lb))).
    { intros r c Hr Hc Hrc. apply (make_mok r c _ ((N - lb) * lb)); auto. intros a Ha. apply HW. unfold ws in *; nia. }
    assert (DTW : forall r c, 0 <= r -> r * c <= (N - lb) * lb -> disjoint (armas_make r c r (b + lb * lb)) Tv).
    { intros r c Hr Hrc a X1 X2. apply (make_ws r c _ ((N - lb) * lb)) in X1; auto. apply (make_ws lb lb b (lb * lb)) in X2; try lia. unfold ws in *. lia. }
    assert (nA : forall a, cell A a -> ~ ws b n a) by (intros a X1 X2; destruct (HW a X2) as (_ & X & _); auto).
    assert (nt : forall a, cell tau a -> ~ ws b n a) by (intros a X1 X2; destruct (HW a X2) as (_ & _ & X & _); auto).
    assert (nb : forall a, inbuf cb (e_p E) a -> ~ ws b n a) by (intros a X1 X2; destruct (HW a X2) as (_ & _ & _ & X); auto).
    unfold blk_qrfactor. rewrite part_at. wbind.
    apply (wp_down L A lb (more_than lb) (N - 1 - lb) _
       (fun k s m' => s = (subm tau 0 0 k 1, if k =? 0 then None else Some (subm tau k 0 (rows tau - k) 1)) /\ (k < N /\ (k = 0 \/ lb <= k)) /\
          qr_inv K M N k (elt m A) (elt m' A) (fun q => elt m' tau q 0) /\
          nn_diag K E k (elt m' A) (fun q => elt m' tau q 0) /\
          (forall q, k <= q < rows tau -> elt m' tau q 0 = elt m tau q 0) /\
          (forall a, ~ cell A a -> ~ cell tau a -> ~ ws b n a -> ~ inbuf cb (e_p E) a -> m' a = m a)) (e_fuel E) 0); try (fold M; fold N; lia).
    - intros q Hq. rewrite more_than_iff by exact Hq. fold M N. lia.
    - split; [|split; [lia|split; [|split; [|split]]]]; auto.
      + unfold mat_partition_2x1. replace (0 >? rows tau) with false by lia. cbn [fst]. rewrite Ct. reflexivity.
      + split; [|split; [|split]; intros; lia]. intros i j Hi Hj. cbn [Z.to_nat qapply]. unfold todo. replace (j <? 0) with false by lia. reflexivity.
      + intros _ q Hq. lia.
    - intros k s m1 Hk (Es & _ & IQ & IN & It & IF). cbv zeta. fold M; fold N.
      replace (Z.min lb (Z.min (M - k) (N - k))) with lb by lia. subst s. cbn [fst].
      unfold b3at. cbn [A11 A21 A12 A22]. fold M; fold N.
      unfold mat_repartition_2x1to3x1. cbn [rows armas_submatrix_unsafe armas_make]. rewrite Ct.
      replace (lb + k >? rows tau) with false by lia.
      change (mkview (elems A + (k * step A + k)) (step A) lb lb) with (subm A k k lb lb).
      rewrite merge_col by lia. fold M.
      set (AL := subm A k k (M - k) lb). set (t1 := subm tau k 0 lb 1).
      set (C1 := subm A k (k + lb) lb (N - k - lb)). set (C2 := subm A (k + lb) (k + lb) (M - k - lb) (N - k - lb)).
      set (Y1 := subm A k k lb lb). set (Y2 := subm A (k + lb) k (M - k - lb) lb).
      assert (iAL : inA A k k (M - k) lb) by (repeat split; fold M; fold N; lia). assert (it : inA tau k 0 lb 1) by (repeat split; lia).
      assert (iC1 : inA A k (k + lb) lb (N - k - lb)) by (repeat split; fold M; fold N; lia).
      assert (iC2 : inA A (k + lb) (k + lb) (M - k - lb) (N - k - lb)) by (repeat split; fold M; fold N; lia).
      assert (iY1 : inA A k k lb lb) by (repeat split; fold M; fold N; lia). assert (iY2 : inA A (k + lb) k (M - k - lb) lb) by (repeat split; fold M; fold N; lia).
      assert (ALA : forall a, cell AL a -> cell A a) by (intros a; apply (V_in L A OA); auto).
      assert (t1t : forall a, cell t1 a -> cell tau a) by (intros a; apply (V_in L tau OT); auto).
      assert (C1A : forall a, cell C1 a -> cell A a) by (intros a; apply (V_in L A OA); auto).
      assert (C2A : forall a, cell C2 a -> cell A a) by (intros a; apply (V_in L A OA); auto).
      assert (Y1A : forall a, cell Y1 a -> cell A a) by (intros a; apply (V_in L A OA); auto).
      assert (Y2A : forall a, cell Y2 a -> cell A a) by (intros a; apply (V_in L A OA); auto).
      wbind. set (w1 := armas_make lb 1 lb (elems W)).
      assert (Ew1 : wvec (cols AL) w1 = armas_make lb 1 lb (b + lb * lb)) by reflexivity.
      assert (w1w : forall a, cell (wvec (cols AL) w1) a -> ws b n a) by (intros a; rewrite Ew1; apply wW; nia).
      apply (unblk_qr_wp K HF HO HE HS); auto.
      { change (rows AL) with (M - k). lia. }
      { change (cols AL) with lb. lia. }
      { apply (V_ok L A OA); auto. }
      { apply (V_ok L tau OT); auto. }
      { rewrite Ew1. apply OWr; nia. }
      { change (rows t1) with lb. change (cols AL) with lb. lia. }
      { intros a X1 X2. apply (DAt a); auto. }
      { nows. }
      { nows. }
      change (rows AL) with (M - k). change (cols AL) with lb. change (rows t1) with lb. replace (Z.min (M - k) lb) with lb by lia.
      intros m2 n' t2' PQ PN _ PF. subst n' t2'.
      assert (PF' : forall a, ~ cell AL a -> ~ cell t1 a -> ~ ws b n a -> m2 a = m1 a).
      { intros a X1 X2 X3. apply PF; auto. }
      wbind.
      destruct (mscale_all K L m2 Tv 0' 0) as (m3 & S1 & S2 & S3); auto; try apply OTv; try discriminate.
      exists 0, m3. split; [exact S1|]. wbind.
      assert (kp3 : forall (V : view) i j, (forall a, cell V a -> ~ ws b n a) -> pos V i j -> elt m3 V i j = elt m2 V i j).
      { intros V i j HV Hp. unfold elt. apply S3. intros Hc. apply (HV (elems V + j * step V + i)); auto. exists i, j. auto. }
      apply (refl_wp K HF HE); auto.
      { change (rows AL) with (M - k). lia. }
      { change (cols AL) with lb. lia. }
      { apply (V_ok L A OA); auto. }
      { apply (V_ok L tau OT); auto. }
      { change (rows t1) with lb. change (cols AL) with lb. lia. }
      { change (rows AL) with (M - k). change (cols AL) with lb. lia. }
      { change (rows Tv) with lb. change (cols AL) with lb. lia. }
      { change (cols Tv) with lb. change (cols AL) with lb. lia. }
      { nows. }
      { nows. }
      { change (rows AL) with (M - k). change (cols AL) with lb. intros X1. exfalso. lia. }
      change (rows AL) with (M - k). change (cols AL) with lb.
      intros m4 Tc _ O4.
      assert (HT : is_T K (M - k) lb (hvec K (elt m3 AL)) (fun q => elt m3 t1 q 0) (upper K (elt m4 Tv))).
      { apply (T_cols_T K HF _ _ _ _ (elt m3 Tv)); auto. intros q p Hq Hp _. rewrite S2 by (split; cbn; lia). ring. }
      assert (kp4 : forall (V : view) i j, (forall a, cell V a -> ~ ws b n a) -> pos V i j -> elt m4 V i j = elt m3 V i j).
      { intros V i j HV Hp. unfold elt. apply O4. intros Hc. apply (HV (elems V + j * step V + i)); auto. exists i, j. auto. }
      wbind. set (Wr := armas_make (N - k - lb) lb (N - k - lb) (elems W)).
      assert (EWr : Wr = armas_make (N - k - lb) lb (N - k - lb) (b + lb * lb)) by reflexivity.
      assert (nWr : (N - k - lb) * lb <= (N - lb) * lb) by nia.
      assert (Wrw : forall a, cell Wr a -> ws b n a) by (intros a; rewrite EWr; apply wW; lia).
      change (armas_update_qr_left K E C1 C2 Y1 Y2 Tv Wr true) with (upd_prog K E true C1 C2 Y1 Y2 Tv Wr true).
      apply (update_wp K HR HE E L cb HC true C1 C2 Y1 Y2 Tv Wr lb (M - k - lb) (N - k - lb)).
      1-4: apply (V_ok L A OA); auto.
      { exact OTv. }
      { rewrite EWr. apply OWr; lia. }
      1-4: intros a X1 X2; apply (cA a); auto.
      { nows. }
      { nows. }
      all: match goal with |- disjoint _ _ => first [solve [nows] | solve [apply (V_disj L A OA); auto; lia] | rewrite EWr; apply DTW; lia] | _ => idtac end.
      1-6: split; reflexivity.
      1-3: lia.
      { lia. }
      { lia. }
      intros m5 U F5. apply wp_ret.
      replace (lb + (M - k - lb)) with (M - k) in U by lia.
      (* element-wise *)
      assert (G2 : forall i j, pos A i j -> ~ inb k k (M - k) lb i j -> elt m2 A i j = elt m1 A i j).
      { intros i j Hp Hn'. assert (cell A (elems A + j * step A + i)) by (exists i, j; auto). unfold elt. apply PF'.
        - apply subm_notin; auto.
        - intros X. apply (DAt (elems A + j * step A + i)); auto.
        - apply nA; auto. }
      assert (G4 : forall i j, pos A i j -> elt m4 A i j = elt m2 A i j) by (intros i j Hp; rewrite kp4, kp3; auto).
      assert (G5 : forall i j, pos A i j -> ~ inb k (k + lb) (M - k) (N - k - lb) i j -> elt m5 A i j = elt m4 A i j).
      { intros i j Hp Hn'. assert (cell A (elems A + j * step A + i)) by (exists i, j; auto). unfold elt. apply F5.
        - apply subm_notin; auto. unfold inb in *; lia.
        - apply subm_notin; auto. unfold inb in *; lia.
        - intros X. apply (nA (elems A + j * step A + i)); auto.
        - intros X. apply (cA (elems A + j * step A + i)); auto. }
      assert (T4 : forall q, 0 <= q < rows tau -> elt m5 tau q 0 = elt m2 tau q 0).
      { intros q Hq. assert (X : cell tau (elems tau + 0 * step tau + q)) by (exists q, 0; split; [split; lia|reflexivity]).
        transitivity (elt m4 tau q 0); [|rewrite kp4, kp3; auto; split; lia]. unfold elt. apply F5; intros Y.
        - apply (DAt (elems tau + 0 * step tau + q)); auto.
        - apply (DAt (elems tau + 0 * step tau + q)); auto.
        - apply (nt (elems tau + 0 * step tau + q)); auto.
        - apply (ct (elems tau + 0 * step tau + q)); auto. }
      assert (T2 : forall q, 0 <= q < rows tau -> ~ k <= q < k + lb -> elt m2 tau q 0 = elt m1 tau q 0).
      { intros q Hq Hne. assert (X : cell tau (elems tau + 0 * step tau + q)) by (exists q, 0; split; [split; lia|reflexivity]).
        unfold elt. apply PF'; auto.
        - intros Y. apply (DAt (elems tau + 0 * step tau + q)); auto.
        - apply subm_notin; auto; [split; lia|unfold inb; lia]. }
      assert (Et1 : forall q, elt m2 t1 q 0 = elt m2 tau (k + q) 0) by (intros q; unfold t1; rewrite V_elt; reflexivity).
      split; [|split; [lia|split; [|split; [|split]]]].
      + unfold mat_continue_3x1to2x1. cbn [fst rows armas_submatrix_unsafe armas_make]. rewrite Ct. replace (k + lb =? 0) with false by lia.
        f_equal. f_equal. f_equal. lia.
      + apply (qr_block K HF M N k lb (elt m A) (elt m1 A) (elt m5 A) (fun q => elt m1 tau q 0) (fun q => elt m5 tau q 0)); auto; try lia.
        * intros i j Hi Hj. rewrite G5, G4, G2; auto; try (split; fold M; fold N; lia); unfold inb; lia.
        * intros i j Hi Hj. rewrite G5, G4, G2; auto; try (split; fold M; fold N; lia); unfold inb; lia.
        * intros q Hq. rewrite T4, T2 by lia. reflexivity.
        * revert PQ. apply qr_inv_ext; [lia| | |].
          -- intros i j Hi Hj. unfold AL. apply V_elt.
          -- intros i j Hi Hj. unfold AL. rewrite V_elt. rewrite G5, G4 by (try (split; fold M; fold N; lia); unfold inb; lia). reflexivity.
          -- intros q Hq. rewrite Et1, T4 by lia. reflexivity.
        * intros r j Hr Hj. specialize (U r (j - (k + lb)) ltac:(lia) ltac:(lia)).
          assert (E5 : forall r, 0 <= r < M - k -> stack true C1 C2 lb m5 r (j - (k + lb)) = elt m5 A (k + r) j).
          { intros r' Hr'. unfold stack, oel, C1, C2. rewrite !V_elt. destruct (r' <? lb) eqn:X; f_equal; lia. }
          assert (E4 : forall r, 0 <= r < M - k -> stack true C1 C2 lb m4 r (j - (k + lb)) = elt m1 A (k + r) j).
          { intros r' Hr'. transitivity (elt m4 A (k + r') j).
            - unfold stack, oel, C1, C2. rewrite !V_elt. destruct (r' <? lb) eqn:X; f_equal; lia.
            - rewrite G4, G2; auto; try (split; fold M; fold N; lia). unfold inb; lia. }
          rewrite E5 in U by auto. rewrite U. symmetry.
          transitivity (qtapply K (M - k) (elt m3 AL) (fun q => elt m3 t1 q 0) (Z.to_nat lb) (fun r => elt m1 A (k + r) j) r).
          { apply (qtapply_ext K); auto; rewrite Z2Nat.id by lia.
            - intros i q Hq Hi. unfold AL. rewrite V_elt. rewrite (kp3 A) by (auto; split; fold M; fold N; lia).
              rewrite G5, G4 by (try (split; fold M; fold N; lia); unfold inb; lia). reflexivity.
            - intros q Hq. unfold t1. rewrite V_elt. rewrite (kp3 tau) by (auto; split; lia). apply T4; lia. }
          rewrite (T_qt K HF _ _ _ _ (upper K (elt m4 Tv))) by (auto; rewrite Z2Nat.id by lia; exact HT). rewrite Z2Nat.id by lia.
          apply (bapply_ext K); auto.
          -- intros q i Hq Hi. apply (hvec_ext K (M - k)); auto. intros i' Hi'.
             transitivity (elt m4 A (k + i') (k + q)).
             ++ unfold AL. rewrite V_elt. rewrite (kp4 A); auto. split; fold M; fold N; lia.
             ++ unfold ystack, Y1, Y2. rewrite !V_elt. destruct (i' <? lb) eqn:X; f_equal; lia.
          -- intros q p Hq Hp. cbn [Bool.eqb]. apply upper_tri.
          -- intros i Hi. symmetry. apply E4. auto.
      + intros Hf q Hq. rewrite T4 by lia. rewrite G5, G4 by (try (split; fold M; fold N; lia); unfold inb; lia).
        destruct (Z_lt_ge_dec q k) as [X|X].
        * rewrite T2, G2 by (try (split; fold M; fold N; lia); try (unfold inb; lia); lia). apply IN; auto; lia.
        * specialize (PN Hf (q - k) ltac:(lia)). cbv beta in PN. rewrite Et1 in PN. unfold AL in PN. rewrite V_elt in PN. replace (k + (q - k)) with q in PN by lia. exact PN.
      + intros q Hq. rewrite T4, T2 by lia. apply It. lia.
      + intros a X1 X2 X3 X4. rewrite F5, O4, S3, PF', IF; auto.
    - intros k s m1 Hk1 Hk2 (Es & Hk3 & IQ & IN & It & IF). fold M in Hk2; fold N in Hk2. subst s.
      replace (k =? 0) with false by lia. unfold b2at. cbn [ABR]. fold M N. set (B := subm A k k (M - k) (N - k)).
      replace (more B) with true by (unfold more, B; cbn [rows cols armas_submatrix_unsafe armas_make]; lia).
      set (t2 := subm tau k 0 (rows tau - k) 1). wbind. wbind.
      assert (iB : inA A k k (M - k) (N - k)) by (repeat split; fold M; fold N; lia). assert (it : inA tau k 0 (rows tau - k) 1) by (repeat split; lia).
      assert (BA : forall a, cell B a -> cell A a) by (intros a; apply (V_in L A OA); auto).
      assert (t2t : forall a, cell t2 a -> cell tau a) by (intros a; apply (V_in L tau OT); auto).
      assert (Hk4 : lb <= k) by lia.
      set (w := armas_submatrix W 0 0 (cols B) 1).
      assert (Ew : wvec (cols B) w = armas_make (N - k) 1 (N - k) (b + lb * lb)).
      { assert (X : elems w = elems W).
        { unfold w, armas_submatrix, armas_submatrix_ext. change (armas_size W) with ((N - lb) * lb). replace ((N - lb) * lb =? 0) with false by nia.
          change (0 <? 0) with false. cbv iota zeta. cbn [armas_make elems]. lia. }
        unfold wvec. rewrite X. reflexivity. }
      assert (ww : forall a, cell (wvec (cols B) w) a -> ws b n a) by (intros a; rewrite Ew; apply wW; nia).
      apply (unblk_qr_wp K HF HO HE HS); auto.
      { change (rows B) with (M - k). lia. }
      { change (cols B) with (N - k). lia. }
      { apply (V_ok L A OA); auto. }
      { apply (V_ok L tau OT); auto. }
      { rewrite Ew. apply OWr; nia. }
      { change (rows t2) with (rows tau - k). change (cols B) with (N - k). lia. }
      { intros a X1 X2. apply (DAt a); auto. }
      { nows. }
      { nows. }
      change (rows B) with (M - k). change (cols B) with (N - k). change (rows t2) with (rows tau - k). replace (Z.min (M - k) (N - k)) with (N - k) by lia.
      intros m2 n' t2' PQ PN Pt PF. subst n' t2'. apply wp_ret. apply wp_ret.
      assert (PF' : forall a, ~ cell B a -> ~ cell t2 a -> ~ ws b n a -> m2 a = m1 a).
      { intros a X1 X2 X3. apply PF; auto. }
      assert (G2 : forall i j, pos A i j -> ~ inb k k (M - k) (N - k) i j -> elt m2 A i j = elt m1 A i j).
      { intros i j Hp Hn'. assert (cell A (elems A + j * step A + i)) by (exists i, j; auto). unfold elt. apply PF'; auto.
        - apply subm_notin; auto.
        - intros X. apply (DAt (elems A + j * step A + i)); auto. }
      assert (T2 : forall q, 0 <= q < k -> elt m2 tau q 0 = elt m1 tau q 0).
      { intros q Hq. assert (X : cell tau (elems tau + 0 * step tau + q)) by (exists q, 0; split; [split; lia|reflexivity]).
        unfold elt. apply PF'; auto.
        - intros Y. apply (DAt (elems tau + 0 * step tau + q)); auto.
        - apply subm_notin; auto; [split; lia|unfold inb; lia]. }
      assert (Et2 : forall (mm : Z -> T) q, elt mm t2 q 0 = elt mm tau (k + q) 0) by (intros mm q; unfold t2; rewrite V_elt; reflexivity).
      apply HQ.
      + replace N with (k + (N - k)) at 2 by lia.
        apply (qr_block K HF M N k (N - k) (elt m A) (elt m1 A) (elt m2 A) (fun q => elt m1 tau q 0) (fun q => elt m2 tau q 0)); auto; try lia.
        * intros i j Hi Hj. apply G2; auto; try (split; fold M; fold N; lia); unfold inb; lia.
        * intros i j Hi Hj. apply G2; auto; try (split; fold M; fold N; lia); unfold inb; lia.
        * revert PQ. apply qr_inv_ext; [lia| | |].
          -- intros i j Hi Hj. unfold B. apply V_elt.
          -- intros i j Hi Hj. unfold B. rewrite V_elt. reflexivity.
          -- intros q Hq. apply Et2.
      + intros Hf q Hq. destruct (Z_lt_ge_dec q k) as [X|X].
        * rewrite T2, G2 by (try (split; fold M; fold N; lia); try (unfold inb; lia); lia). apply IN; auto; lia.
        * specialize (PN Hf (q - k) ltac:(lia)). cbv beta in PN. rewrite Et2 in PN. unfold B in PN. rewrite V_elt in PN. replace (k + (q - k)) with q in PN by lia. exact PN.
      + intros q Hq. specialize (Pt (q - k) ltac:(lia)). rewrite !Et2 in Pt. replace (k + (q - k)) with q in Pt by lia. rewrite Pt. apply It. lia.
      + intros a X1 X2 X3 X4. rewrite PF', IF; auto.
  Qed.
End Q.
