(* PQrMul.v: multiplication by the orthogonal matrix of a QR factorization. *)
From Coq Require Import ZArith Lia Bool ZifyBool Ring Field.
From Verif Require Import Mem MView SpecView PView PSub Hoare MFlags MBase MCopy PUpd PCopy
  MNum SpecNum MBlas1 PSum PBlas1 MElem PElem MBlas2 PMvec PBlas2 PFrame SpecTrm MTrm PTrm MGemm PGemm PMatcpy PMult
  MTrsm PTrsm MTrmm PTrmm PNorm MLap PUpdTrm PLap MHouse SpecHouse SpecQr PHouse MQr PQrA PQrB PQr PQrT PUpdQr PQrF MQrMul
  Properties_Gemm.
Local Open Scope Z_scope.
Local Open Scope prog_scope.

Ltac lia := nobool; zlia.

Lemma repart_up : forall A k nb, 0 < nb -> 0 < k -> 
  mat_repartition_2x2to3x3 (subm A 0 0 k k) A nb PTop = b3at A (k - Z.min nb k) (Z.min nb k).
Proof.
  intros A k nb Hn Hk. unfold mat_repartition_2x2to3x3. cbn [rows cols armas_submatrix_unsafe armas_make].
  assert (X : (if nb >? k then k else nb) = Z.min nb k) by (destruct (nb >? k) eqn:X; Lia.lia). rewrite X.
  replace (Z.min nb k >? k) with false by Lia.lia. set (n := Z.min nb k). unfold b3at.
  change (armas_submatrix_unsafe A) with (subm A).
  replace (k - n + n) with k by lia. replace (cols A - (k - n) - n) with (cols A - k) by lia. replace (rows A - (k - n) - n) with (rows A - k) by lia. reflexivity.
Qed.

(* the loop that runs to the top left *)
Lemma wp_up : forall {T S} L (A : view) nb body (I : Z -> S -> (Z -> T) -> Prop) fuel k s m (Q : S -> (Z -> T) -> Prop),
  0 < nb -> 0 <= k -> k <= Z.of_nat fuel -> I k s m ->
  (forall q s m, 0 < q <= k -> I q s m -> let n := Z.min nb q in wp (body (b3at A (q - n) n) s) L m (fun s' m' => I (q - n) s' m')) ->
  (forall s m, I 0 s m -> Q s m) ->
  wp (up_loop fuel A nb body (subm A 0 0 k k) s) L m Q.
Proof.
  intros T S L A nb body I fuel. induction fuel as [|fuel IH]; intros k s m Q Hnb Hk Hf HI Hb HQ; cbn [up_loop].
  - assert (k = 0) as -> by lia. cbn. apply wp_ret. auto.
  - unfold more. change (rows (subm A 0 0 k k)) with k. change (cols (subm A 0 0 k k)) with k. destruct (k >? 0) eqn:E; cbn [andb].
    + rewrite repart_up by Lia.lia. wbind. eapply wp_conseq; [apply Hb; [Lia.lia|exact HI]|]. intros s' m' HI'. cbv zeta in HI'.
      set (n := Z.min nb k) in *. assert (0 < n <= k) by Lia.lia. unfold mat_continue_3x3to2x2, b3at. cbn [A00 A11 ATL rows cols armas_submatrix_unsafe armas_make].
      apply IH; auto; try lia. intros q s0 m0 Hq. apply Hb. lia.
    + apply wp_ret. assert (k = 0) as -> by Lia.lia. auto.
Qed.

Lemma wp_unbind : forall {T A B} (c : M T A) (f : A -> M T B) L m Q,
  wp (bind c f) L m Q -> wp c L m (fun a m' => wp (f a) L m' Q).
Proof.
  intros T A B c f L m Q (b & m'' & E & H). rewrite run_bind in E. destruct (run c L m) as [(a, m')|] eqn:Ec; [|discriminate].
  exists a, m'. split; auto. exists b, m''. auto.
Qed.

(* part k .. k+n-1 of the rows (left) or columns (right) of C *)
Definition Cp (lf : bool) (C : view) (k n : Z) : view := if lf then subm C k 0 n (cols C) else subm C 0 k (rows C) n.

Lemma merge_col' : forall A k l, 0 < l -> k + l <= rows A ->
  mat_merge2x1 (subm A k k l l) (subm A (k + l) k (rows A - k - l) l) = subm A k k (rows A - k) l.
Proof.
  intros A k l Hl Hk. destruct (Z.eq_dec (k + l) (rows A)) as [He|He]; [|apply merge_col; lia].
  unfold mat_merge2x1, armas_size. cbn [rows cols armas_submatrix_unsafe armas_make].
  replace (l * l =? 0) with false by nia. replace ((rows A - k - l) * l =? 0) with true by nia. cbn [andb].
  unfold armas_submatrix_unsafe, armas_make. cbn [rows cols step elems]. f_equal; lia.
Qed.

Section Q.
  Context {T : Type} (K : num T).
  Hypotheses (HF : is_field K) (HE : eqb_ok K).
  Let HR : is_ring K := Field_theory.F_R HF.
  Let HR' : ring_theory (zero K) (one K) (add K) (mul K) (sub K) (opp K) eq := HR.
  Add Ring KringM : HR'.
  Local Notation "0'" := (zero K).
  Local Notation "1'" := (one K).

  Lemma qtapply_app : forall n a t k l z i, Z.of_nat k + Z.of_nat l <= n -> 0 <= i < n ->
    let k' := Z.of_nat k in let y := qtapply K n a t k z in
    qtapply K n a t (k + l) z i = (if i <? k' then y i else
      qtapply K (n - k') (fun i j => a (k' + i) (k' + j)) (fun q => t (k' + q)) l (fun r => y (k' + r)) (i - k')).
  Proof.
    intros n a t k l z i Hn Hi k' y. revert i Hi. induction l as [|l IH]; intros i Hi.
    - rewrite Nat.add_0_r. cbn [qtapply]. fold y. destruct (i <? k') eqn:Ei; auto. f_equal; lia.
    - rewrite Nat.add_succ_r. cbn [qtapply]. unfold hmap at 1.
      replace (Z.of_nat (k + l)) with (k' + Z.of_nat l) by lia.
      assert (Hlow : forall i, 0 <= i < k' + Z.of_nat l -> hvec K a (k' + Z.of_nat l) i = 0') by (intros; apply hvec_low; lia).
      destruct (i <? k') eqn:Ei.
      + rewrite (reflect_low K HF) by (apply Hlow; lia). rewrite IH by lia. rewrite Ei. reflexivity.
      + rewrite (reflect_embed K HF n k') by (try lia; intros; apply Hlow; lia). unfold hmap. apply (reflect_ext K); [| |lia].
        * intros p Hp. unfold hvec. replace (k' + p <? k' + Z.of_nat l) with (p <? Z.of_nat l) by lia.
          replace (k' + p =? k' + Z.of_nat l) with (p =? Z.of_nat l) by lia. reflexivity.
        * intros p Hp. rewrite IH by lia. replace (k' + p <? k') with false by lia. f_equal. lia.
  Qed.

  (* the matrix Q *)
  Lemma q_adj : forall n a t k z y, inner K n (qapply K n a t k z) y = inner K n z (qtapply K n a t k y).
  Proof.
    intros n a t k. induction k as [|k IH]; intros z y; cbn [qapply qtapply]; auto. rewrite IH. unfold hmap.
    rewrite (inner_sym K HF), (inner_reflect K HF), (inner_reflect K HF). rewrite (inner_sym K HF n _ z), (inner_sym K HF n _ (hvec K a (Z.of_nat k))), (inner_sym K HF n z (hvec K a (Z.of_nat k))). ring.
  Qed.

  Lemma inner_unit : forall n i y, 0 <= i < n -> inner K n (fun r => if r =? i then 1' else 0') y = y i.
  Proof.
    intros n i y Hi. unfold inner. rewrite (vsum_one K HR n i); auto.
    - rewrite Z.eqb_refl. ring.
    - intros k Hk Hne. replace (k =? i) with false by lia. ring.
  Qed.

  Lemma qt_entry : forall n a t k y i, 0 <= i < n -> qtapply K n a t k y i = vsum K n (fun r => mul K (qmat K n a t k r i) (y r)).
  Proof.
    intros n a t k y i Hi. rewrite <- (inner_unit n i (qtapply K n a t k y)) by auto. rewrite <- q_adj. reflexivity.
  Qed.

  Lemma q_entry : forall n a t k y i, 0 <= i < n -> qapply K n a t k y i = vsum K n (fun r => mul K (qmat K n a t k i r) (y r)).
  Proof.
    intros n a t k y i Hi. rewrite <- (inner_unit n i (qapply K n a t k y)) by auto. rewrite (inner_sym K HF), q_adj. unfold inner. apply (vsum_ext K).
    intros r Hr. rewrite qt_entry by auto. rewrite (vsum_one K HR n i); auto.
    - rewrite Z.eqb_refl. ring.
    - intros s Hs Hne. replace (s =? i) with false by lia. ring.
  Qed.

  Section C.
    Variables (lf : bool) (E : lenv) (L : Z -> bool) (C A tau : view) (nc : Z).
    Local Notation M := (rows A).
    Local Notation N := (cols A).
    Hypotheses (OC : mok L C) (OA : mok L A) (OT : mok L tau).
    Hypotheses (DCA : disjoint C A) (DCt : disjoint C tau).
    Hypotheses (Ct : cols tau = 1) (Rt : N <= rows tau) (HMN : N <= M).
    Hypotheses (RC : if lf then rows C = M /\ cols C = nc else rows C = nc /\ cols C = M).
    Hypotheses (Hf1 : M < Z.of_nat (e_fuel E)) (Hf2 : nc < Z.of_nat (e_fuel E)).

    Lemma Cp_in : forall k n, 0 <= k -> 0 <= n -> k + n <= M ->
      (forall a, cell (Cp lf C k n) a -> cell C a) /\ mok L (Cp lf C k n) /\
      (forall (m : Z -> T) i j, oel lf m (Cp lf C k n) i j = oel lf m C (k + i) j).
    Proof.
      intros k n Hk Hn HM. assert (WC : wf C) by apply OC. assert (0 <= nc) by (destruct WC as (X1 & X2 & X3); destruct lf; lia).
      unfold Cp, oel. destruct lf.
      - assert (I : inA C k 0 n (cols C)) by (repeat split; lia). split; [intros a; apply (V_in L C OC); auto|]. split; [apply (V_ok L C OC); auto|].
        intros m i j. rewrite V_elt. reflexivity.
      - assert (I : inA C 0 k (rows C) n) by (repeat split; lia). split; [intros a; apply (V_in L C OC); auto|]. split; [apply (V_ok L C OC); auto|].
        intros m i j. rewrite V_elt. reflexivity.
    Qed.

    Lemma Cp_disj : forall k n k' n', 0 <= k -> 0 <= n -> k + n <= k' -> 0 <= n' -> k' + n' <= M -> disjoint (Cp lf C k n) (Cp lf C k' n').
    Proof.
      intros k n k' n' H1 H2 H3 H4 H5. assert (WC : wf C) by apply OC. assert (0 <= nc) by (destruct WC as (X1 & X2 & X3); destruct lf; lia).
      unfold Cp. destruct lf; apply (V_disj L C OC); try lia; repeat split; lia.
    Qed.

    (* what is not in part k.. stays *)
    Lemma Cp_keep : forall (m m' : Z -> T) k, 0 <= k <= M -> (forall a, cell C a -> ~ cell (Cp lf C k (M - k)) a -> m' a = m a) ->
      forall i j, 0 <= i < k -> 0 <= j < nc -> oel lf m' C i j = oel lf m C i j.
    Proof.
      intros m m' k Hk H i j Hi Hj. assert (WC : wf C) by apply OC. unfold oel, Cp in *. destruct lf.
      - unfold elt. apply H; [exists i, j; split; [split; lia|reflexivity]|]. apply subm_notin; auto; [repeat split; lia|split; lia|unfold inb; lia].
      - unfold elt. apply H; [exists j, i; split; [split; lia|reflexivity]|]. apply subm_notin; auto; [repeat split; lia|split; lia|unfold inb; lia].
    Qed.

    Lemma ustep_wp : forall W k m (Q : Z -> (Z -> T) -> Prop),
      b2_ok E -> 0 <= k < N -> mok L (wvec nc W) ->
      disjoint (wvec nc W) C -> disjoint (wvec nc W) A -> disjoint (wvec nc W) tau ->
      (forall m', (forall i j, 0 <= i < M -> 0 <= j < nc -> oel lf m' C i j =
           hmap K M (elt m A) (fun q => elt m tau q 0) k (fun r => oel lf m C r j) i) ->
         (forall a, ~ cell C a -> ~ cell (wvec nc W) a -> m' a = m a) -> Q 0 m') ->
      wp (armas_apply_householder2x1 K E (Some (subm tau k 0 1 1)) (subm A (k + 1) k (M - k - 1) 1)
        (Cp lf C k 1) (Cp lf C (k + 1) (M - k - 1)) (wvec nc W) (if lf then ARMAS_LEFT else ARMAS_RIGHT)) L m Q.
    Proof.
      intros W k m Q HB Hk OW DWC DWA DWt HQ. assert (WA : wf A) by apply OA. assert (WC : wf C) by apply OC.
      assert (Hnc : 0 <= nc) by (destruct WC as (X1 & X2 & X3); destruct lf; lia).
      set (P := subm A (k + 1) k (M - k - 1) 1). set (c1 := Cp lf C k 1). set (C2 := Cp lf C (k + 1) (M - k - 1)).
      assert (iP : inA A (k + 1) k (M - k - 1) 1) by (repeat split; lia).
      assert (it : inA tau k 0 1 1) by (repeat split; lia).
      assert (VP : vok L P) by (split; [right; reflexivity|]; apply (V_ok L A OA); auto).
      destruct (Cp_in k 1) as (c1C & Oc1 & Ec1); try lia. destruct (Cp_in (k + 1) (M - k - 1)) as (C2C & OC2 & EC2); try lia.
      fold c1 in c1C, Oc1, Ec1. fold C2 in C2C, OC2, EC2.
      assert (PA : forall a, cell P a -> cell A a) by (intros a; apply (V_in L A OA); auto).
      assert (lP : vlen P = M - k - 1) by (apply (col_len A)).
      assert (lc : vlen c1 = nc) by (unfold c1, Cp; destruct lf; [rewrite (row_len C)|rewrite (col_len C)]; lia).
      assert (lw : vlen (wvec nc W) = nc) by (unfold vlen, wvec; cbn [rows cols armas_make]; lia).
      assert (Vc : vok L c1) by (split; [unfold c1, Cp; destruct lf; [left|right]; reflexivity|exact Oc1]).
      unfold armas_apply_householder2x1. wbind. cbn [tau_value]. apply (get_blk_wp K E L tau); auto.
      set (fl := if lf then ARMAS_LEFT else ARMAS_RIGHT). assert (Efl : has fl ARMAS_LEFT = lf) by (unfold fl; destruct lf; reflexivity).
      apply (apply2x1_wp K HF HE); auto.
      { rewrite lw. exact Hf2. }
      { unfold C2, Cp. destruct lf; cbn [rows armas_submatrix_unsafe armas_make]; lia. }
      { apply (wvec_vok nc); auto. lia. }
      1-3: intros a X1 X2; first [solve [apply (DWA a); auto]|solve [apply (DWC a); auto]].
      { apply Cp_disj; lia. }
      { intros a X1 X2. apply (DCA a); auto. }
      { intros a X1 X2. apply (DCA a); auto. }
      { rewrite lw, lc. reflexivity. }
      { rewrite Efl, lc. unfold C2, Cp. destruct lf; cbn [rows cols armas_submatrix_unsafe armas_make]; lia. }
      { rewrite Efl, lP. unfold C2, Cp. destruct lf; reflexivity. }
      rewrite Efl, lP, lc. intros m3 U F3. apply HQ.
      2:{ intros a X1 X2. apply F3; auto. }
      assert (Ea : forall (mm : Z -> T) i j, aelt lf mm C2 i j = oel lf mm C (k + 1 + i) j) by (intros mm i j; rewrite <- EC2; reflexivity).
      assert (Ev : forall (mm : Z -> T) j, 0 <= j < nc -> velt mm c1 j = oel lf mm C k j).
      { intros mm j Hj. unfold c1, Cp, oel in *. destruct lf; [rewrite (row_velt C) by lia|rewrite (col_velt C) by lia]; f_equal; lia. }
      intros i j Hi Hj. unfold hmap. destruct (Z_lt_ge_dec i k) as [Hik|Hik].
      - rewrite (reflect_low K HF) by (apply hvec_low; lia). apply (Cp_keep m m3 k); try lia. intros a X1 X2. apply F3.
        + intros X. apply (DWC a); auto.
        + intros X. apply X2. revert X. unfold c1, Cp. intros (r & c & (Y1 & Y2) & ->). destruct lf; cbn [rows cols elems step armas_submatrix_unsafe armas_make] in *;
            exists r, c; (split; [split; cbn [rows cols armas_submatrix_unsafe armas_make]; lia|reflexivity]).
        + intros X. apply X2. revert X. unfold C2, Cp. intros (r & c & (Y1 & Y2) & ->). destruct lf; cbn [rows cols elems step armas_submatrix_unsafe armas_make] in *.
          * exists (r + 1), c; (split; [split; cbn [rows cols armas_submatrix_unsafe armas_make]; lia|cbn [elems step armas_submatrix_unsafe armas_make]; lia]).
          * exists r, (c + 1); (split; [split; cbn [rows cols armas_submatrix_unsafe armas_make]; lia|cbn [elems step armas_submatrix_unsafe armas_make]; lia]).
      - rewrite (reflect_embed K HF M k) by (try lia; intros; apply hvec_low; lia).
        specialize (U (i - k) j ltac:(lia) Hj). replace (M - k - 1 + 1) with (M - k) in U by lia.
        assert (E1 : forall (mm : Z -> T) r, 0 <= r -> vcons (velt mm c1 j) (fun i => aelt lf mm C2 i j) r = oel lf mm C (k + r) j).
        { intros mm r Hr. unfold vcons. destruct (r =? 0) eqn:Er; [rewrite Ev by auto|rewrite Ea]; f_equal; lia. }
        rewrite E1 in U by lia. replace (k + (i - k)) with i in U by lia. rewrite U. apply (reflect_ext K); [| |lia].
        + intros p Hp. rewrite hvec_cons by lia. unfold vcons. destruct (p =? 0) eqn:Ep; auto. unfold P. rewrite (col_velt A) by lia. reflexivity.
        + intros p Hp. apply E1. lia.
    Qed.

    (* one block of l reflectors *)
    Lemma bstep_wp : forall cb transpose b b2 n k l Tv W m (Q : Z -> (Z -> T) -> Prop),
      cfg_ok E L cb -> 0 <= k -> 0 < l -> k + l <= N -> elems Tv = b -> elems W = b2 -> l * l <= b2 - b -> b2 - b + nc * l <= n ->
      (forall a, ws b n a -> L a = true /\ ~ cell C a /\ ~ cell A a /\ ~ cell tau a /\ ~ inbuf cb (e_p E) a) ->
      clear_of cb (e_p E) C -> clear_of cb (e_p E) A -> clear_of cb (e_p E) tau ->
      (N = M -> elt m tau (N - 1) 0 = 0') ->
      (forall m', (forall i j, 0 <= i < M -> 0 <= j < nc -> oel lf m' C i j = if i <? k then oel lf m C i j else
           (if Bool.eqb transpose lf then qtapply else qapply) K (M - k) (fun i j => elt m A (k + i) (k + j)) (fun q => elt m tau (k + q) 0)
             (Z.to_nat l) (fun r => oel lf m C (k + r) j) (i - k)) ->
         (forall a, ~ cell C a -> ~ ws b n a -> ~ inbuf cb (e_p E) a -> m' a = m a) -> Q 0 m') ->
      wp (Tcur <- qrmult_reflector K E (b3at A k l) (subm tau k 0 l 1) Tv ;;
          upd_prog K E lf (Cp lf C k l) (Cp lf C (k + l) (M - k - l)) (subm A k k l l) (subm A (k + l) k (M - k - l) l) Tcur
            (armas_make nc l nc (elems W)) transpose) L m Q.
    Proof.
      intros cb transpose b b2 n k l Tv W m Q HC Hk Hl Hkl ETv EW Hll Hn HW cC cA ct Hlast HQ.
      assert (WA : wf A) by apply OA. assert (WC : wf C) by apply OC.
      assert (Hnc : 0 <= nc) by (destruct WC as (X1 & X2 & X3); destruct lf; lia).
      assert (HB1 : 0 <= e_b1 E) by apply HC. assert (HB2 : 2 <= e_b2 E) by apply HC.
      unfold qrmult_reflector, b3at. cbn [A11 A21]. change (cols (subm A k k l l)) with l. rewrite merge_col' by lia. rewrite ETv, EW.
      set (AL := subm A k k (M - k) l). set (t1 := subm tau k 0 l 1). set (C1 := Cp lf C k l). set (C2 := Cp lf C (k + l) (M - k - l)).
      set (Y1 := subm A k k l l). set (Y2 := subm A (k + l) k (M - k - l) l). set (Tc := armas_make l l l b). set (Wr := armas_make nc l nc b2).
      assert (iAL : inA A k k (M - k) l) by (repeat split; lia). assert (it : inA tau k 0 l 1) by (repeat split; lia).
      assert (iY1 : inA A k k l l) by (repeat split; lia). assert (iY2 : inA A (k + l) k (M - k - l) l) by (repeat split; lia).
      destruct (Cp_in k l) as (C1C & OC1 & EC1); try lia. destruct (Cp_in (k + l) (M - k - l)) as (C2C & OC2 & EC2); try lia.
      fold C1 in C1C, OC1, EC1. fold C2 in C2C, OC2, EC2.
      assert (ALA : forall a, cell AL a -> cell A a) by (intros a; apply (V_in L A OA); auto).
      assert (t1t : forall a, cell t1 a -> cell tau a) by (intros a; apply (V_in L tau OT); auto).
      assert (Y1A : forall a, cell Y1 a -> cell A a) by (intros a; apply (V_in L A OA); auto).
      assert (Y2A : forall a, cell Y2 a -> cell A a) by (intros a; apply (V_in L A OA); auto).
      assert (Tw : forall a, cell Tc a -> ws b n a) by (intros a Ha; apply (make_ws l l b n); auto; nia).
      assert (Ww : forall a, cell Wr a -> ws b n a) by (intros a Ha; apply (make_ws nc l b2 (nc * l)) in Ha; try lia; unfold ws in *; nia).
      assert (OTc : mok L Tc) by (apply (make_mok l l b n); try nia; intros a Ha; apply HW; auto).
      assert (OWr : mok L Wr) by (apply (make_mok nc l b2 (nc * l)); try lia; intros a Ha; apply HW; unfold ws in *; nia).
      assert (DTW : disjoint Wr Tc).
      { intros a X1 X2. apply (make_ws nc l b2 (nc * l)) in X1; try lia. apply (make_ws l l b (l * l)) in X2; try lia. unfold ws in *. lia. }
      assert (nC : forall a, cell C a -> ~ ws b n a) by (intros a X1 X2; apply HW in X2; intuition).
      assert (nA : forall a, cell A a -> ~ ws b n a) by (intros a X1 X2; apply HW in X2; intuition).
      assert (nt : forall a, cell tau a -> ~ ws b n a) by (intros a X1 X2; apply HW in X2; intuition).
      assert (nb : forall a, inbuf cb (e_p E) a -> ~ ws b n a) by (intros a X1 X2; apply HW in X2; intuition).
      wbind. wbind.
      destruct (mscale_all K L m Tc 0' 0) as (m3 & S1 & S2 & S3); auto; try apply OTc; try discriminate.
      exists 0, m3. split; [exact S1|]. wbind.
      assert (kp3 : forall (V : view) i j, (forall a, cell V a -> ~ ws b n a) -> pos V i j -> elt m3 V i j = elt m V i j).
      { intros V i j HV Hp. unfold elt. apply S3. intros Hc. apply (HV (elems V + j * step V + i)); auto. exists i, j. auto. }
      apply (refl_wp K HF HE); auto.
      { change (rows AL) with (M - k). lia. }
      { change (cols AL) with l. lia. }
      { apply (V_ok L A OA); auto. }
      { apply (V_ok L tau OT); auto. }
      { change (rows t1) with l. change (cols AL) with l. lia. }
      { change (rows AL) with (M - k). change (cols AL) with l. lia. }
      { change (rows Tc) with l. change (cols AL) with l. lia. }
      { change (cols Tc) with l. change (cols AL) with l. lia. }
      { intros a X1 X2. apply (nA a); auto. }
      { intros a X1 X2. apply (nt a); auto. }
      { change (rows AL) with (M - k). change (cols AL) with l. intros X1 _. unfold t1. rewrite V_elt. rewrite (kp3 tau) by (auto; split; lia).
        rewrite <- Hlast by lia. f_equal; lia. }
      change (rows AL) with (M - k). change (cols AL) with l.
      intros m4 Tc4 _ O4. apply wp_ret.
      assert (HT : is_T K (M - k) l (hvec K (elt m3 AL)) (fun q => elt m3 t1 q 0) (upper K (elt m4 Tc))).
      { apply (T_cols_T K HF _ _ _ _ (elt m3 Tc)); auto. intros q p Hq Hp _. rewrite S2 by (split; cbn; lia). ring. }
      assert (kp4 : forall (V : view) i j, (forall a, cell V a -> ~ ws b n a) -> pos V i j -> elt m4 V i j = elt m V i j).
      { intros V i j HV Hp. rewrite <- kp3 by auto. unfold elt. apply O4. intros Hc. apply (HV (elems V + j * step V + i)); auto. exists i, j. auto. }
      apply (update_wp K HR HE E L cb HC lf C1 C2 Y1 Y2 Tc Wr l (M - k - l) nc); auto; try lia.
      1, 2: apply (V_ok L A OA); auto.
      1-6: intros a X1 X2; first [solve [apply (cC a); auto]|solve [apply (cA a); auto]|solve [apply (nb a); auto]].
      { apply Cp_disj; lia. }
      1-6: intros a X1 X2; first [solve [apply (DCA a); auto]|solve [apply (nC a); auto]|solve [apply (nA a); auto]].
      { unfold C1, Cp. destruct lf; cbn [rows cols armas_submatrix_unsafe armas_make]; lia. }
      { unfold C2, Cp. destruct lf; cbn [rows cols armas_submatrix_unsafe armas_make]; lia. }
      intros m5 U F5. replace (l + (M - k - l)) with (M - k) in U by lia. apply HQ.
      2:{ intros a X1 X2 X3. rewrite F5, O4, S3; auto. }
      assert (E5 : forall (mm : Z -> T) r j, stack lf C1 C2 l mm r j = oel lf mm C (k + r) j).
      { intros mm r j. unfold stack. rewrite EC1, EC2. destruct (r <? l) eqn:X; f_equal; lia. }
      assert (K4 : forall i j, 0 <= i < M -> 0 <= j < nc -> oel lf m4 C i j = oel lf m C i j).
      { intros i j Hi Hj. unfold oel in *. destruct lf; apply kp4; auto; split; lia. }
      intros i j Hi Hj. destruct (i <? k) eqn:Eik.
      - rewrite <- K4 by auto. apply (Cp_keep m4 m5 k); try lia. intros a X1 X2. apply F5; auto.
        + intros X. apply X2. revert X. unfold C1, Cp. intros (r & c & (Y3 & Y4) & ->). destruct lf; cbn [rows cols elems step armas_submatrix_unsafe armas_make] in *;
            exists r, c; (split; [split; cbn [rows cols armas_submatrix_unsafe armas_make]; lia|reflexivity]).
        + intros X. apply X2. revert X. unfold C2, Cp. intros (r & c & (Y3 & Y4) & ->). destruct lf; cbn [rows cols elems step armas_submatrix_unsafe armas_make] in *.
          * exists (l + r), c; (split; [split; cbn [rows cols armas_submatrix_unsafe armas_make]; lia|cbn [elems step armas_submatrix_unsafe armas_make]; lia]).
          * exists r, (l + c); (split; [split; cbn [rows cols armas_submatrix_unsafe armas_make]; lia|cbn [elems step armas_submatrix_unsafe armas_make]; lia]).
        + intros X. apply (nC a); auto.
        + intros X. apply (cC a); auto.
      - specialize (U (i - k) j ltac:(lia) Hj). rewrite E5 in U. replace (k + (i - k)) with i in U by lia. rewrite U.
        assert (Ey : forall q i, 0 <= q < l -> 0 <= i < M - k -> hvec K (ystack Y1 Y2 l m4) q i = hvec K (elt m3 AL) q i).
        { intros q i' Hq Hi'. apply (hvec_ext K (M - k)); auto. intros r Hr. unfold AL. rewrite V_elt. rewrite (kp3 A) by (auto; split; lia).
          rewrite <- (kp4 A) by (auto; split; lia). unfold ystack, Y1, Y2. rewrite !V_elt. destruct (r <? l) eqn:X; f_equal; lia. }
        assert (EA : forall r q, 0 <= q < l -> q < r < M - k -> elt m3 AL r q = elt m A (k + r) (k + q)).
        { intros r q Hq Hr. unfold AL. rewrite V_elt. apply (kp3 A); auto. split; lia. }
        assert (Et : forall q, 0 <= q < l -> elt m3 t1 q 0 = elt m tau (k + q) 0).
        { intros q Hq. unfold t1. rewrite V_elt. apply (kp3 tau); auto. split; lia. }
        assert (Es : forall r, 0 <= r < M - k -> stack lf C1 C2 l m4 r j = oel lf m C (k + r) j).
        { intros r Hr. rewrite E5. apply K4; lia. }
        destruct (Bool.eqb transpose lf).
        + transitivity (qtapply K (M - k) (elt m3 AL) (fun q => elt m3 t1 q 0) (Z.to_nat l) (fun r => stack lf C1 C2 l m4 r j) (i - k)).
          * rewrite (T_qt K HF _ _ _ _ (upper K (elt m4 Tc))) by (try lia; rewrite Z2Nat.id by lia; exact HT). rewrite Z2Nat.id by lia.
            apply (bapply_ext K); auto; [|lia]. intros q p Hq Hp. symmetry. apply upper_tri.
          * apply (qtapply_ext K); auto; try (rewrite Z2Nat.id by lia; auto). lia.
        + transitivity (qapply K (M - k) (elt m3 AL) (fun q => elt m3 t1 q 0) (Z.to_nat l) (fun r => stack lf C1 C2 l m4 r j) (i - k)).
          * rewrite (T_q K HF _ _ _ _ (upper K (elt m4 Tc))) by (try lia; rewrite Z2Nat.id by lia; exact HT). rewrite Z2Nat.id by lia.
            apply (bapply_ext K); auto; [|lia]. intros q p Hq Hp. symmetry. apply upper_tri.
          * apply (qapply_ext K); auto; try (rewrite Z2Nat.id by lia; auto). lia.
    Qed.

    (* reflectors k .. k+l-1 applied to z, the last one first when fwd is false *)
    Definition stepf (fwd : bool) (a : Z -> Z -> T) (t : Z -> T) k l (z : Z -> T) : Z -> T := fun i =>
      if i <? k then z i else
        (if fwd then qtapply else qapply) K (M - k) (fun i j => a (k + i) (k + j)) (fun q => t (k + q)) (Z.to_nat l) (fun r => z (k + r)) (i - k).

    Definition st (k : Z) : view * view := (Cp lf C 0 k, subm tau 0 0 k 1).

    Lemma hmap_step : forall fwd a t k z i, 0 <= k < M -> 0 <= i < M -> hmap K M a t k z i = stepf fwd a t k 1 z i.
    Proof using HF.
      clear OC OA OT DCA DCt Ct Rt HMN RC Hf1 Hf2. intros fwd a t k z i Hk Hi. unfold hmap, stepf. destruct (i <? k) eqn:Eik.
      - apply (reflect_low K HF). apply hvec_low. lia.
      - rewrite (reflect_embed K HF M k) by (try lia; intros; apply hvec_low; lia).
        assert (X : hmap K (M - k) (fun i j => a (k + i) (k + j)) (fun q => t (k + q)) 0 (fun r => z (k + r)) (i - k) =
          reflect K (M - k) (t k) (fun i0 => hvec K a k (k + i0)) (fun r => z (k + r)) (i - k)).
        { unfold hmap. rewrite Z.add_0_r. apply (reflect_ext K); auto; [|lia]. intros p Hp. unfold hvec.
          replace (k + p <? k) with (p <? 0) by lia. replace (k + p =? k) with (p =? 0) by lia. rewrite Z.add_0_r. reflexivity. }
        rewrite <- X. destruct fwd; reflexivity.
    Qed.

    Lemma two_way_wp : forall (P : Z -> Prop) (fwd : bool) nb (body : dir -> blk3 -> view * view -> Mem.M T (view * view)) (m : Z -> T) (Q : Z -> (Z -> T) -> Prop), 0 < nb -> rows tau = N ->
      (forall a, cell A a -> P a) -> (forall a, cell tau a -> P a) ->
      (forall k n m1, 0 <= k -> 0 < n <= nb -> k + n <= N -> (forall a, P a -> m1 a = m a) ->
         wp (body (if fwd then PBottom else PTop) (b3at A k n) (st (if fwd then k else k + n))) L m1
           (fun s' m' => s' = st (if fwd then k + n else k) /\
              (forall i j, 0 <= i < M -> 0 <= j < nc ->
                 oel lf m' C i j = stepf fwd (elt m A) (fun q => elt m tau q 0) k n (fun r => oel lf m1 C r j) i) /\
              (forall a, P a -> m' a = m1 a))) ->
      (forall m', (forall i j, 0 <= i < M -> 0 <= j < nc -> oel lf m' C i j =
           (if fwd then qtapply else qapply) K M (elt m A) (fun q => elt m tau q 0) (Z.to_nat N) (fun r => oel lf m C r j) i) ->
         (forall a, P a -> m' a = m a) -> Q 0 m') ->
      wp (two_way E fwd A nb body
        (fst (if lf then mat_partition_2x1 C 0 PTop else mat_partition_1x2 C 0 PTop), fst (mat_partition_2x1 tau 0 PTop))
        (fst (if lf then mat_partition_2x1 C (M - N) PBottom else mat_partition_1x2 C (M - N) PBottom), fst (mat_partition_2x1 tau 0 PBottom))) L m Q.
    Proof.
      intros P fwd nb body m Q Hnb Htau PA Pt Hb HQ. assert (WA : wf A) by apply OA. assert (WC : wf C) by apply OC. destruct WA as (WA1 & WA2 & WA3).
      set (a := elt m A). set (t := fun q => elt m tau q 0).
      unfold two_way. destruct fwd.
      - wbind. rewrite part_at.
        replace (fst (if lf then mat_partition_2x1 C 0 PTop else mat_partition_1x2 C 0 PTop), fst (mat_partition_2x1 tau 0 PTop)) with (st 0).
        2:{ unfold st, Cp, mat_partition_2x1, mat_partition_1x2. rewrite Ct, Htau. replace (0 >? N) with false by Lia.lia.
            destruct WC as (X1 & X2 & X3). replace (0 >? rows C) with false by Lia.lia. replace (0 >? cols C) with false by Lia.lia. destruct lf; reflexivity. }
        apply (wp_down L A nb more (N - 1) _
          (fun k s m' => s = st k /\ (forall i j, 0 <= i < M -> 0 <= j < nc -> oel lf m' C i j = qtapply K M a t (Z.to_nat k) (fun r => oel lf m C r j) i) /\
             (forall a, P a -> m' a = m a)) (e_fuel E) 0); try lia.
        + intros q Hq. rewrite more_iff by exact Hq. lia.
        + split; [reflexivity|split; auto].
        + intros k s m1 Hk (-> & IC & IF). cbv zeta. set (n := Z.min nb (Z.min (M - k) (N - k))).
          eapply wp_conseq; [apply Hb; auto; lia|]. cbv beta. intros s' m' (-> & J1 & J2). split; [reflexivity|]. split.
          * intros i j Hi Hj. rewrite J1 by auto. rewrite Z2Nat.inj_add by lia. rewrite qtapply_app by (rewrite ?Z2Nat.id by lia; lia).
            rewrite Z2Nat.id by lia. unfold stepf. destruct (i <? k) eqn:Eik; [apply IC; auto|]. apply (qtapply_ext K); auto; [|lia].
            intros r Hr. apply IC; lia.
          * intros x Hx. rewrite J2, IF by auto. reflexivity.
        + intros k s m1 Hk0 Hk (-> & IC & IF). apply wp_ret. apply HQ; auto. intros i j Hi Hj. rewrite IC by auto. do 2 f_equal. lia.
      - wbind. replace (Z.max 0 (M - N)) with (M - N) by lia. replace (Z.max 0 (N - M)) with 0 by lia. unfold mat_partition_2x2. cbn [ATL].
        replace (M - (M - N)) with N by lia. rewrite Z.sub_0_r.
        replace (fst (if lf then mat_partition_2x1 C (M - N) PBottom else mat_partition_1x2 C (M - N) PBottom), fst (mat_partition_2x1 tau 0 PBottom)) with (st N).
        2:{ unfold st, Cp, mat_partition_2x1, mat_partition_1x2. rewrite Ct, Htau. replace (0 >? N) with false by Lia.lia. rewrite Z.sub_0_r.
            destruct lf; destruct RC as (-> & ->); (replace (M - N >? M) with false by Lia.lia); cbn [fst]; replace (M - (M - N)) with N by lia; reflexivity. }
        apply (wp_up L A nb _
          (fun k s m' => s = st k /\ (forall i j, 0 <= i < M -> 0 <= j < nc -> qapply K M a t (Z.to_nat k) (fun r => oel lf m' C r j) i =
               qapply K M a t (Z.to_nat N) (fun r => oel lf m C r j) i) /\ (forall a, P a -> m' a = m a))); try lia.
        + split; [reflexivity|split; auto].
        + intros k s m1 Hk (-> & IC & IF). cbv zeta. set (n := Z.min nb k).
          specialize (Hb (k - n) n m1). replace (k - n + n) with k in Hb by lia.
          eapply wp_conseq; [apply Hb; auto; lia|]. cbv beta. intros s' m' (-> & J1 & J2). split; [reflexivity|]. split.
          * intros i j Hi Hj. rewrite <- IC by auto. replace k with (k - n + n) at 2 by lia. rewrite (Z2Nat.inj_add (k - n) n) by lia.
            rewrite (qapply_app K HF) by (rewrite ?Z2Nat.id by lia; lia). rewrite Z2Nat.id by lia. apply (qapply_ext K); auto.
            intros r Hr. rewrite J1 by auto. reflexivity.
          * intros x Hx. rewrite J2, IF by auto. reflexivity.
        + intros s m1 (-> & IC & IF). apply wp_ret. apply HQ; auto.
    Qed.
  End C.

  (* the four programs *)
  Definition unblk_mul (lf : bool) := if lf then unblk_qrmult_left K else unblk_qrmult_right K.
  Definition blk_mul (lf : bool) := if lf then blk_qrmult_left K else blk_qrmult_right K.

  Section P.
    Variables (lf : bool) (E : lenv) (L : Z -> bool) (C A tau : view) (nc : Z).
    Local Notation M := (rows A).
    Local Notation N := (cols A).
    Hypotheses (OC : mok L C) (OA : mok L A) (OT : mok L tau).
    Hypotheses (DCA : disjoint C A) (DCt : disjoint C tau).
    Hypotheses (Ct : cols tau = 1) (Rt : rows tau = N) (HMN : N <= M).
    Hypotheses (RC : if lf then rows C = M /\ cols C = nc else rows C = nc /\ cols C = M).
    Hypotheses (Hf1 : M < Z.of_nat (e_fuel E)) (Hf2 : nc < Z.of_nat (e_fuel E)).

    Let Rt' : N <= rows tau.
    Proof. lia. Qed.

    Lemma unblk_mul_wp : forall flags W m (Q : Z -> (Z -> T) -> Prop), b2_ok E -> mok L (wvec nc W) ->
      disjoint (wvec nc W) C -> disjoint (wvec nc W) A -> disjoint (wvec nc W) tau ->
      (forall m', (forall i j, 0 <= i < M -> 0 <= j < nc -> oel lf m' C i j =
           (if Bool.eqb (has flags ARMAS_TRANS) lf then qtapply else qapply) K M (elt m A) (fun q => elt m tau q 0) (Z.to_nat N) (fun r => oel lf m C r j) i) ->
         (forall a, ~ cell C a -> ~ cell (wvec nc W) a -> m' a = m a) -> Q 0 m') ->
      wp (unblk_mul lf E C A tau W flags) L m Q.
    Proof.
      intros flags W m Q HB OW DWC DWA DWt HQ. assert (WA : wf A) by apply OA.
      set (fwd := Bool.eqb (has flags ARMAS_TRANS) lf) in *.
      assert (Hb : forall k n m1, 0 <= k -> 0 < n <= 1 -> k + n <= N -> (forall a, ~ cell C a /\ ~ cell (wvec nc W) a -> m1 a = m a) ->
         wp (armas_apply_householder2x1 K E (Some (subm tau k 0 1 1)) (subm A (k + 1) k (M - k - 1) 1)
               (Cp lf C k 1) (Cp lf C (k + 1) (M - k - 1)) (wvec nc W) (if lf then ARMAS_LEFT else ARMAS_RIGHT)) L m1
           (fun _ m' => (forall i j, 0 <= i < M -> 0 <= j < nc ->
                 oel lf m' C i j = stepf A fwd (elt m A) (fun q => elt m tau q 0) k n (fun r => oel lf m1 C r j) i) /\
              (forall a, ~ cell C a /\ ~ cell (wvec nc W) a -> m' a = m1 a))).
      { intros k n m1 Hk Hn Hkn F1. assert (n = 1) as -> by lia. apply (ustep_wp lf E L C A tau nc); auto; try lia.
        intros m2 U F2. split.
        - intros i j Hi Hj. rewrite U by auto. rewrite (hmap_step A fwd) by lia.
          assert (EA : forall i j, pos A i j -> elt m1 A i j = elt m A i j).
          { intros r c Hp. unfold elt. apply F1. assert (cell A (elems A + c * step A + r)) by (exists r, c; auto). split; intros X; [apply (DCA (elems A + c * step A + r))|apply (DWA (elems A + c * step A + r))]; auto. }
          assert (Et : elt m1 tau k 0 = elt m tau k 0).
          { unfold elt. apply F1. assert (cell tau (elems tau + 0 * step tau + k)) by (exists k, 0; split; [split; lia|auto]). split; intros X; [apply (DCt (elems tau + 0 * step tau + k))|apply (DWt (elems tau + 0 * step tau + k))]; auto. }
          unfold stepf. destruct (i <? k) eqn:Eik; auto.
          destruct fwd; [apply (qtapply_ext K)|apply (qapply_ext K)]; auto; try lia.
          1, 3: intros r q Hq Hr; apply EA; split; lia.
          all: intros q Hq; replace (k + q) with k by lia; exact Et.
        - intros a (X1 & X2). auto. }
      unfold unblk_mul. destruct WA as (WA1 & WA2 & WA3).
      destruct lf; [unfold unblk_qrmult_left|unfold unblk_qrmult_right]; destruct RC as (RC1 & RC2).
      - rewrite RC2; fold (wvec nc W). unfold armas_size. rewrite Ct, Rt.
        replace (Z.max 0 (M - N)) with (M - N) by lia. replace (Z.max 0 (N * 1 - N)) with 0 by lia.
        replace (has flags ARMAS_TRANS) with fwd by (unfold fwd; destruct (has flags ARMAS_TRANS); reflexivity).
        apply (two_way_wp true E L C A tau nc OC OA Ct HMN RC Hf1 (fun a => ~ cell C a /\ ~ cell (wvec nc W) a)); auto; try lia.
        1, 2: intros a Ha; split; intros X; [solve [apply (DCA a); auto|apply (DCt a); auto]|solve [apply (DWA a); auto|apply (DWt a); auto]].
        intros k n m1 Hk Hn Hkn F1. assert (n = 1) as -> by lia. specialize (Hb k 1 m1 Hk Hn Hkn F1).
        destruct fwd.
        + unfold st, Cp, mat_repartition_2x1to3x1. cbn [fst snd]. change (rows (subm C 0 0 k (cols C))) with k. change (rows (subm tau 0 0 k 1)) with k.
          rewrite ?Ct, ?Rt, ?RC1. replace (1 + k >? M) with false by Lia.lia. replace (1 + k >? N) with false by Lia.lia.
          wbind. unfold b3at. cbn [A21]. eapply wp_conseq; [exact Hb|]. cbv beta. intros _ m' HH. apply wp_ret. split; [|exact HH].
          unfold mat_continue_3x1to2x1. rewrite Ct. reflexivity.
        + unfold st, Cp, mat_repartition_2x1to3x1. cbn [fst snd]. change (rows (subm C 0 0 (k + 1) (cols C))) with (k + 1). change (rows (subm tau 0 0 (k + 1) 1)) with (k + 1).
          rewrite ?Ct, ?Rt, ?RC1. replace (k + 1 <? 1) with false by Lia.lia. replace (k + 1 - 1) with k by lia. replace (M - (k + 1)) with (M - k - 1) by lia.
          wbind. unfold b3at. cbn [A21]. eapply wp_conseq; [exact Hb|]. cbv beta. intros _ m' HH. apply wp_ret. split; [|exact HH].
          unfold mat_continue_3x1to2x1. rewrite Ct. reflexivity.
      - rewrite RC1. fold (wvec nc W). unfold armas_size. rewrite Ct, Rt.
        replace (Z.max 0 (cols C - N)) with (M - N) by lia. replace (Z.max 0 (N * 1 - Z.min M N)) with 0 by lia.
        replace (negb (has flags ARMAS_TRANS)) with fwd by (unfold fwd; destruct (has flags ARMAS_TRANS); reflexivity).
        apply (two_way_wp false E L C A tau nc OC OA Ct HMN RC Hf1 (fun a => ~ cell C a /\ ~ cell (wvec nc W) a)); auto; try lia.
        1, 2: intros a Ha; split; intros X; [solve [apply (DCA a); auto|apply (DCt a); auto]|solve [apply (DWA a); auto|apply (DWt a); auto]].
        intros k n m1 Hk Hn Hkn F1. assert (n = 1) as -> by lia. specialize (Hb k 1 m1 Hk Hn Hkn F1).
        destruct fwd.
        + unfold st, Cp, mat_repartition_2x1to3x1, mat_repartition_1x2to1x3. cbn [fst snd]. change (cols (subm C 0 0 (rows C) k)) with k. change (rows (subm tau 0 0 k 1)) with k.
          rewrite ?Ct, ?Rt, ?RC2. replace (k + 1 >? M) with false by Lia.lia. replace (1 + k >? N) with false by Lia.lia.
          wbind. unfold b3at. cbn [A21]. eapply wp_conseq; [exact Hb|]. cbv beta. intros _ m' HH. apply wp_ret. split; [|exact HH].
          unfold mat_continue_3x1to2x1, mat_continue_1x3to1x2. rewrite Ct. reflexivity.
        + unfold st, Cp, mat_repartition_2x1to3x1, mat_repartition_1x2to1x3. cbn [fst snd]. change (cols (subm C 0 0 (rows C) (k + 1))) with (k + 1). change (rows (subm tau 0 0 (k + 1) 1)) with (k + 1).
          rewrite ?Ct, ?Rt, ?RC2. replace (1 >? k + 1) with false by Lia.lia. replace (k + 1 <? 1) with false by Lia.lia. replace (k + 1 - 1) with k by lia. replace (M - (k + 1)) with (M - k - 1) by lia.
          wbind. unfold b3at. cbn [A21]. eapply wp_conseq; [exact Hb|]. cbv beta. intros _ m' HH. apply wp_ret. split; [|exact HH].
          unfold mat_continue_3x1to2x1, mat_continue_1x3to1x2. rewrite Ct. reflexivity.
    Qed.

    Lemma blk_mul_wp : forall flags cb lb b n m (Q : Z -> (Z -> T) -> Prop), cfg_ok E L cb -> 0 < lb -> (nc + lb) * lb <= n ->
      (forall a, ws b n a -> L a = true /\ ~ cell C a /\ ~ cell A a /\ ~ cell tau a /\ ~ inbuf cb (e_p E) a) ->
      clear_of cb (e_p E) C -> clear_of cb (e_p E) A -> clear_of cb (e_p E) tau ->
      (N = M -> elt m tau (N - 1) 0 = 0') ->
      (forall m', (forall i j, 0 <= i < M -> 0 <= j < nc -> oel lf m' C i j =
           (if Bool.eqb (has flags ARMAS_TRANS) lf then qtapply else qapply) K M (elt m A) (fun q => elt m tau q 0) (Z.to_nat N) (fun r => oel lf m C r j) i) ->
         (forall a, ~ cell C a -> ~ ws b n a -> ~ inbuf cb (e_p E) a -> m' a = m a) -> Q 0 m') ->
      wp (blk_mul lf E C A tau (armas_make lb lb lb b) (armas_make nc lb nc (b + lb * lb)) flags lb) L m Q.
    Proof.
      intros flags cb lb b n m Q HC Hlb Hn HW cC cA ct Hlast HQ. assert (WA : wf A) by apply OA. assert (WC : wf C) by apply OC.
      assert (Hnc : 0 <= nc) by (destruct WC as (X1 & X2 & X3); destruct lf; lia).
      set (Tv := armas_make lb lb lb b). set (W := armas_make nc lb nc (b + lb * lb)).
      set (fwd := Bool.eqb (has flags ARMAS_TRANS) lf) in *.
      set (P := fun a => ~ cell C a /\ ~ ws b n a /\ ~ inbuf cb (e_p E) a).
      assert (PA : forall a, cell A a -> P a).
      { intros a Ha. split; [intros X; apply (DCA a); auto|split]; intros X; [apply HW in X; intuition|apply (cA a); auto]. }
      assert (Pt : forall a, cell tau a -> P a).
      { intros a Ha. split; [intros X; apply (DCt a); auto|split]; intros X; [apply HW in X; intuition|apply (ct a); auto]. }
      assert (Hb : forall k l m1, 0 <= k -> 0 < l <= lb -> k + l <= N -> (forall a, P a -> m1 a = m a) ->
         wp (Tcur <- qrmult_reflector K E (b3at A k l) (subm tau k 0 l 1) Tv ;;
             upd_prog K E lf (Cp lf C k l) (Cp lf C (k + l) (M - k - l)) (subm A k k l l) (subm A (k + l) k (M - k - l) l) Tcur
               (armas_make nc l nc (elems W)) (has flags ARMAS_TRANS)) L m1
           (fun _ m' => (forall i j, 0 <= i < M -> 0 <= j < nc ->
                 oel lf m' C i j = stepf A fwd (elt m A) (fun q => elt m tau q 0) k l (fun r => oel lf m1 C r j) i) /\
              (forall a, P a -> m' a = m1 a))).
      { intros k l m1 Hk Hl Hkl F1.
        assert (EA : forall i j, pos A i j -> elt m1 A i j = elt m A i j).
        { intros r c Hp. unfold elt. apply F1. apply PA. exists r, c; auto. }
        assert (Et : forall q, 0 <= q < N -> elt m1 tau q 0 = elt m tau q 0).
        { intros q Hq. unfold elt. apply F1. apply Pt. exists q, 0. split; [split; lia|auto]. }
        apply (bstep_wp lf E L C A tau nc OC OA OT DCA Ct Rt' HMN RC Hf1 Hf2 cb (has flags ARMAS_TRANS) b (b + lb * lb) n); auto; try lia; try nia.
        { intros X. rewrite Et by lia. auto. }
        fold fwd. intros m2 U F2. split.
        - intros i j Hi Hj. rewrite U by auto.
          unfold stepf. destruct (i <? k) eqn:Eik; auto.
          destruct fwd; [apply (qtapply_ext K)|apply (qapply_ext K)]; auto; try lia.
          1, 3: intros r q Hq Hr; apply EA; split; lia.
          all: intros q Hq; apply Et; lia.
        - intros a (X1 & X2 & X3). auto. }
      unfold blk_mul. destruct WA as (WA1 & WA2 & WA3).
      assert (HQ' : forall m', (forall i j, 0 <= i < M -> 0 <= j < nc -> oel lf m' C i j =
           (if fwd then qtapply else qapply) K M (elt m A) (fun q => elt m tau q 0) (Z.to_nat N) (fun r => oel lf m C r j) i) ->
         (forall a, P a -> m' a = m a) -> Q 0 m').
      { intros m' X1 X2. apply HQ; auto. intros a Y1 Y2 Y3. apply X2. repeat split; auto. }
      destruct lf; [unfold blk_qrmult_left|unfold blk_qrmult_right]; destruct RC as (RC1 & RC2).
      - unfold armas_size. rewrite Ct, Rt.
        replace (Z.max 0 (M - N)) with (M - N) by lia. replace (Z.max 0 (N * 1 - Z.min M N)) with 0 by lia.
        replace (two_way E (has flags ARMAS_TRANS)) with (two_way (T := T) E fwd) by (unfold fwd; destruct (has flags ARMAS_TRANS); reflexivity).
        apply (two_way_wp true E L C A tau nc OC OA Ct HMN RC Hf1 P); auto; try lia.
        intros k l m1 Hk Hn' Hkn F1. specialize (Hb k l m1 Hk Hn' Hkn F1). change (cols (A11 (b3at A k l))) with l.
        destruct fwd.
        + unfold st, Cp, mat_repartition_2x1to3x1. cbn [fst snd]. change (rows (subm C 0 0 k (cols C))) with k. change (rows (subm tau 0 0 k 1)) with k.
          rewrite ?Ct, ?Rt, ?RC1. replace (l + k >? M) with false by Lia.lia. replace (l + k >? N) with false by Lia.lia.
          wbind. apply wp_unbind in Hb. eapply wp_conseq; [exact Hb|]. cbv beta. intros Tc m2 HH. wbind.
          change (cols (subm C k 0 l (cols C))) with (cols C). unfold upd_prog, Cp in HH. rewrite <- RC2 in HH.
          eapply wp_conseq; [exact HH|]. cbv beta. intros _ m' HH'. apply wp_ret. split; [|rewrite <- RC2; exact HH'].
          unfold mat_continue_3x1to2x1. rewrite Ct. reflexivity.
        + unfold st, Cp, mat_repartition_2x1to3x1. cbn [fst snd]. change (rows (subm C 0 0 (k + l) (cols C))) with (k + l). change (rows (subm tau 0 0 (k + l) 1)) with (k + l).
          rewrite ?Ct, ?Rt, ?RC1. replace (k + l <? l) with false by Lia.lia. replace (k + l - l) with k by lia. replace (M - (k + l)) with (M - k - l) by lia.
          wbind. apply wp_unbind in Hb. eapply wp_conseq; [exact Hb|]. cbv beta. intros Tc m2 HH. wbind.
          change (cols (subm C k 0 l (cols C))) with (cols C). unfold upd_prog, Cp in HH. rewrite <- RC2 in HH.
          eapply wp_conseq; [exact HH|]. cbv beta. intros _ m' HH'. apply wp_ret. split; [|rewrite <- RC2; exact HH'].
          unfold mat_continue_3x1to2x1. rewrite Ct. reflexivity.
      - unfold armas_size. rewrite Ct, Rt.
        replace (Z.max 0 (cols C - N)) with (M - N) by lia. replace (Z.max 0 (N * 1 - Z.min M N)) with 0 by lia.
        replace (two_way E (negb (has flags ARMAS_TRANS))) with (two_way (T := T) E fwd) by (unfold fwd; destruct (has flags ARMAS_TRANS); reflexivity).
        apply (two_way_wp false E L C A tau nc OC OA Ct HMN RC Hf1 P); auto; try lia.
        intros k l m1 Hk Hn' Hkn F1. specialize (Hb k l m1 Hk Hn' Hkn F1). change (cols (A11 (b3at A k l))) with l.
        destruct fwd.
        + unfold st, Cp, mat_repartition_2x1to3x1, mat_repartition_1x2to1x3. cbn [fst snd]. change (cols (subm C 0 0 (rows C) k)) with k. change (rows (subm tau 0 0 k 1)) with k.
          rewrite ?Ct, ?Rt, ?RC2. replace (k + l >? M) with false by Lia.lia. replace (l + k >? N) with false by Lia.lia.
          wbind. apply wp_unbind in Hb. eapply wp_conseq; [exact Hb|]. cbv beta. intros Tc m2 HH. wbind.
          change (rows (subm C 0 k (rows C) l)) with (rows C). unfold upd_prog, Cp in HH. rewrite <- RC1 in HH.
          eapply wp_conseq; [exact HH|]. cbv beta. intros _ m' HH'. apply wp_ret. split; [|rewrite <- RC1; exact HH'].
          unfold mat_continue_3x1to2x1, mat_continue_1x3to1x2. rewrite Ct. reflexivity.
        + unfold st, Cp, mat_repartition_2x1to3x1, mat_repartition_1x2to1x3. cbn [fst snd]. change (cols (subm C 0 0 (rows C) (k + l))) with (k + l). change (rows (subm tau 0 0 (k + l) 1)) with (k + l).
          rewrite ?Ct, ?Rt, ?RC2. replace (l >? k + l) with false by Lia.lia. replace (k + l <? l) with false by Lia.lia. replace (k + l - l) with k by lia. replace (M - (k + l)) with (M - k - l) by lia.
          wbind. apply wp_unbind in Hb. eapply wp_conseq; [exact Hb|]. cbv beta. intros Tc m2 HH. wbind.
          change (rows (subm C 0 k (rows C) l)) with (rows C). unfold upd_prog, Cp in HH. rewrite <- RC1 in HH.
          eapply wp_conseq; [exact HH|]. cbv beta. intros _ m' HH'. apply wp_ret. split; [|rewrite <- RC1; exact HH'].
          unfold mat_continue_3x1to2x1, mat_continue_1x3to1x2. rewrite Ct. reflexivity.
    Qed.
  End P.
End Q.
