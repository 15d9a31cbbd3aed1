(* PQr.v: the unblocked QR factorization. *)
From Coq Require Import ZArith Lia Bool ZifyBool Ring Field.
From Verif Require Import Mem MView SpecView PView PSub Hoare MFlags MBase MCopy PUpd PCopy
  MNum SpecNum MBlas1 PSum PBlas1 MElem PElem MBlas2 PMvec PBlas2 PFrame MTrsm PTrsm PNorm MLap PLap
  MHouse SpecHouse SpecQr PHouse MQr PQrA.
Local Open Scope Z_scope.
Local Open Scope prog_scope.

Ltac lia := nobool; zlia.

Lemma subm_notin : forall A r c nr nc i j, wf A -> inA A r c nr nc -> pos A i j -> ~ inb r c nr nc i j ->
  ~ cell (subm A r c nr nc) (elems A + j * step A + i).
Proof. intros A r c nr nc i j H (H1 & H2 & H3 & H4 & H5 & H6) Hp Hn Hc. apply Hn. apply (subm_cell A r c nr nc i j) in Hc; auto. Qed.

Lemma subm_elems : forall A r c nr nc, elems (subm A r c nr nc) = elems A + c * step A + r.
Proof. intros. unfold armas_submatrix_unsafe, armas_make. cbn [elems]. lia. Qed.

(* the workspace of n elements that the routines take from W *)
Definition wvec (n : Z) (W : view) : view := armas_make n 1 n (elems W).

Lemma wvec_sub : forall n k W a, 0 <= k <= n -> cell (wvec k W) a -> cell (wvec n W) a.
Proof.
  intros n k W a Hk (i & j & (H1 & H2) & ->). unfold wvec, armas_make in *. cbn [rows cols elems step] in *.
  exists i, j. split; [split; cbn; lia|]. cbn [rows cols elems step]. replace j with 0 by lia. lia.
Qed.

Lemma wvec_vok : forall n k W L, mok L (wvec n W) -> 0 <= k <= n -> vok L (wvec k W).
Proof.
  intros n k W L (H1 & H2) Hk. split; [right; reflexivity|]. split.
  - repeat split; cbn; lia.
  - intros a Ha. apply H2. apply (wvec_sub n k); auto.
Qed.

Section Q.
  Context {T : Type} (K : num T).
  Hypotheses (HF : is_field K) (HO : is_ordered K) (HE : eqb_ok K) (HS : sqrt_ok K).
  Let HF' : field_theory (zero K) (one K) (add K) (mul K) (sub K) (opp K) (div K)
    (fun x => div K (one K) x) eq := HF.
  Add Field KfieldQr : HF'.
  Let HR : is_ring K := Field_theory.F_R HF.
  Local Notation "0'" := (zero K).
  Local Notation "1'" := (one K).

  Lemma house_res_ext : forall flags n a a' x x' b b' t t' v v', a = a' -> b = b' -> t = t' ->
    (forall k, 0 <= k < n -> x k = x' k) -> (forall k, 0 <= k < n -> v k = v' k) ->
    house_res K flags n a x b t v -> house_res K flags n a' x' b' t' v'.
  Proof.
    intros flags n a a' x x' b b' t t' v v' -> -> -> Hx Hv. unfold house_res.
    rewrite <- (inner_ext K n x x' x x' Hx Hx).
    assert (Hvc : forall k, 0 <= k < n + 1 -> vcons 1' v k = vcons 1' v' k).
    { intros k Hk. unfold vcons. destruct (k =? 0) eqn:E; auto. apply Hv. lia. }
    assert (Hxc : forall k, 0 <= k < n + 1 -> vcons a' x k = vcons a' x' k).
    { intros k Hk. unfold vcons. destruct (k =? 0) eqn:E; auto. apply Hx. lia. }
    destruct (eqb K (inner K n x x) 0').
    - intros (-> & -> & H). split; auto. split; auto. intros k Hk. rewrite <- Hv, <- Hx; auto.
    - intros (H1 & H2 & H3). split; [|split; auto].
      + intros i Hi. rewrite <- H1 by auto. symmetry. apply reflect_ext; auto.
      + rewrite <- H2. f_equal. symmetry. apply inner_ext; auto.
  Qed.

  Lemma house_sign : forall flags n a x b t v, house_res K flags n a x b t v -> has flags ARMAS_NONNEG = true ->
    t = 0' \/ ltb K b 0' = false.
  Proof. intros flags n a x b t v H Hf. unfold house_res in H. destruct (eqb K (inner K n x x) 0'); [left|right]; intuition. Qed.

  (* A is factored in place: reflectors below the diagonal and in tau, R on and above it *)
  Definition nn_diag (E : lenv) (k : Z) (a : Z -> Z -> T) (t : Z -> T) : Prop :=
    has (e_opt E) ARMAS_NONNEG = true -> forall q, 0 <= q < k -> t q = 0' \/ ltb K (a q q) 0' = false.

  Lemma unblk_qr_wp : forall (E : lenv) safmin steps L A tau W m (Q : Z -> (Z -> T) -> Prop),
    b2_ok E -> rows A < Z.of_nat (e_fuel E) -> cols A < Z.of_nat (e_fuel E) ->
    ltb K 0' safmin = true -> steps_ok K safmin steps ->
    mok L A -> mok L tau -> mok L (wvec (cols A) W) -> cols tau = 1 -> Z.min (rows A) (cols A) <= rows tau ->
    disjoint A tau -> disjoint (wvec (cols A) W) A -> disjoint (wvec (cols A) W) tau ->
    (forall m', let n := Z.min (rows A) (cols A) in let t' := fun q => elt m' tau q 0 in
       qr_inv K (rows A) (cols A) n (elt m A) (elt m' A) t' -> nn_diag E n (elt m' A) t' ->
       (forall q, n <= q < rows tau -> elt m' tau q 0 = elt m tau q 0) ->
       (forall a, ~ cell A a -> ~ cell tau a -> ~ cell (wvec (cols A) W) a -> m' a = m a) -> Q 0 m') ->
    wp (armas_unblk_qrfactor K E safmin steps A tau W) L m Q.
  Proof.
    intros E safmin steps L A tau W m Q HB HfM HfN Hsp Hst OA OT OW Ct Rt DAt DWA DWt HQ.
    set (M := rows A) in *. set (N := cols A) in *.
    assert (HM : 0 <= M) by (destruct OA as ((H1 & H2 & H3) & _); exact H1).
    assert (HN : 0 <= N) by (destruct OA as ((H1 & H2 & H3) & _); exact H2).
    assert (WA : wf A) by apply OA. assert (WT : wf tau) by apply OT.
    unfold armas_unblk_qrfactor. wbind. rewrite part_at.
    apply (wp_down L A 1 more (Z.min M N - 1) _
       (fun k s m' => s = subm tau 0 0 k 1 /\ k <= Z.min M N /\ qr_inv K M N k (elt m A) (elt m' A) (fun q => elt m' tau q 0) /\
          nn_diag E k (elt m' A) (fun q => elt m' tau q 0) /\
          (forall q, k <= q < rows tau -> elt m' tau q 0 = elt m tau q 0) /\
          (forall a, ~ cell A a -> ~ cell tau a -> ~ cell (wvec N W) a -> m' a = m a)) (e_fuel E) 0); try (fold M; fold N; lia).
    - intros q Hq. apply more_iff. exact Hq.
    - split; [|split; [lia|split; [|split; [|split]]]]; auto.
      + unfold mat_partition_2x1. replace (0 >? rows tau) with false by lia. cbn [fst]. rewrite Ct. reflexivity.
      + split; [|split; [|split]; intros; lia]. intros i j Hi Hj. cbn [Z.to_nat qapply]. unfold todo. replace (j <? 0) with false by lia. reflexivity.
      + intros _ q Hq. lia.
    - intros k s m1 Hk (Es & _ & IQ & IN & It & IF). cbv zeta. fold M; fold N.
      replace (Z.min 1 (Z.min (M - k) (N - k))) with 1 by lia. subst s.
      unfold b3at. cbn [A11 A21 A12 A22]. fold M; fold N.
      unfold mat_repartition_2x1to3x1. cbn [rows armas_submatrix_unsafe armas_make]. rewrite Ct.
      replace (1 + k >? rows tau) with false by lia.
      set (P := subm A (k + 1) k (M - k - 1) 1). set (R := subm A k (k + 1) 1 (N - k - 1)).
      set (Bk := subm A (k + 1) (k + 1) (M - k - 1) (N - k - 1)). set (t1 := subm tau k 0 1 1). set (a11 := subm A k k 1 1).
      assert (iP : inA A (k + 1) k (M - k - 1) 1) by (repeat split; fold M; fold N; lia).
      assert (iR : inA A k (k + 1) 1 (N - k - 1)) by (repeat split; fold M; fold N; lia).
      assert (iB : inA A (k + 1) (k + 1) (M - k - 1) (N - k - 1)) by (repeat split; fold M; fold N; lia).
      assert (ia : inA A k k 1 1) by (repeat split; fold M; fold N; lia).
      assert (it : inA tau k 0 1 1) by (repeat split; lia).
      assert (VP : vok L P) by (split; [right; reflexivity|]; apply (V_ok L A OA); auto).
      assert (VR : vok L R) by (split; [left; reflexivity|]; apply (V_ok L A OA); auto).
      assert (VB : mok L Bk) by (apply (V_ok L A OA); auto).
      assert (Ea11 : elems a11 = elems A + k * step A + k) by (apply subm_elems).
      assert (Et1 : elems t1 = elems tau + 0 * step tau + k) by (apply subm_elems).
      assert (ca : cell A (elems a11)) by (rewrite Ea11; exists k, k; split; [split; fold M; fold N; lia|reflexivity]).
      assert (ct : cell tau (elems t1)) by (rewrite Et1; exists k, 0; split; [split; lia|reflexivity]).
      assert (lP : vlen P = M - k - 1) by (apply (col_len A)).
      assert (lR : vlen R = N - k - 1) by (apply (row_len A)).
      assert (PA : forall a, cell P a -> cell A a) by (intros a; apply (V_in L A OA); auto).
      assert (RA : forall a, cell R a -> cell A a) by (intros a; apply (V_in L A OA); auto).
      assert (BA : forall a, cell Bk a -> cell A a) by (intros a; apply (V_in L A OA); auto).
      wbind. unfold armas_compute_householder.
      apply (internal_householder_wp K HF HO HE HS); auto.
      { destruct OA as (_ & HL). apply HL. exact ca. }
      { destruct OT as (_ & HL). apply HL. exact ct. }
      { cbn; lia. }
      { rewrite Ea11. apply subm_notin; auto; [split; fold M; fold N; lia|unfold inb; lia]. }
      { intros Hc. apply (DAt (elems t1)); auto. }
      { intros Hc. apply (DAt (elems t1)); auto. rewrite <- Hc. exact ca. }
      intros m2 Hh F2. rewrite lP in Hh. wbind.
      set (w := armas_make (cols R) 1 (cols R) (elems W)).
      assert (Ew : w = wvec (N - k - 1) W) by reflexivity.
      assert (wW : forall a, cell w a -> cell (wvec N W) a) by (intros a; rewrite Ew; apply wvec_sub; lia).
      unfold armas_apply_householder2x1. wbind. cbn [tau_value]. unfold t1 at 1. apply (get_blk_wp K E L tau); auto.
      change (elt m2 tau k 0) with (m2 (elems tau + 0 * step tau + k)). rewrite <- Et1.
      apply (apply2x1_wp K HF HE); auto.
      { rewrite Ew. unfold vlen, wvec. cbn [rows cols armas_make]. lia. }
      { change (rows Bk) with (M - k - 1). lia. }
      { rewrite Ew. apply (wvec_vok N); auto. lia. }
      { intros a H1 H2. apply (DWA a); auto. }
      { intros a H1 H2. apply (DWA a); auto. }
      { intros a H1 H2. apply (DWA a); auto. }
      { apply (V_disj L A OA); auto; lia. }
      { apply (V_disj L A OA); auto; lia. }
      { apply (V_disj L A OA); auto; lia. }
      { rewrite Ew, lR. unfold vlen, wvec. cbn [rows cols armas_make]. lia. }
      change (has ARMAS_LEFT ARMAS_LEFT) with true. rewrite lP, lR. intros m3 U F3. apply wp_ret.
      (* m1 -> m2 -> m3 in terms of elements *)
      assert (G2 : forall i j, pos A i j -> ~ inb k k (M - k) 1 i j -> elt m2 A i j = elt m1 A i j).
      { intros i j Hp Hn. unfold elt. apply F2.
        - apply subm_notin; auto. unfold inb in *; lia.
        - rewrite Ea11. intros H. apply Hn. assert (i = k /\ j = k) as (-> & ->) by (apply (pos_inj A); auto; [split; fold M; fold N; lia|lia]). unfold inb; lia.
        - intros H. apply (DAt (elems t1)); auto. rewrite <- H. exists i, j. auto. }
      assert (G3 : forall i j, pos A i j -> ~ inb k (k + 1) (M - k) (N - k - 1) i j -> elt m3 A i j = elt m2 A i j).
      { intros i j Hp Hn. unfold elt. apply F3.
        - intros H. apply (DWA (elems A + j * step A + i)); auto. exists i, j. auto.
        - apply subm_notin; auto. unfold inb in *; lia.
        - apply subm_notin; auto. unfold inb in *; lia. }
      assert (T2 : forall q, 0 <= q < rows tau -> q <> k -> elt m2 tau q 0 = elt m1 tau q 0).
      { intros q Hq Hne. assert (cell tau (elems tau + 0 * step tau + q)) by (exists q, 0; split; [split; lia|reflexivity]).
        unfold elt. apply F2.
        - intros H1. apply (DAt (elems tau + 0 * step tau + q)); auto.
        - intros H1. apply (DAt (elems tau + 0 * step tau + q)); auto. rewrite H1. exact ca.
        - rewrite Et1. lia. }
      assert (T3 : forall q, 0 <= q < rows tau -> elt m3 tau q 0 = elt m2 tau q 0).
      { intros q Hq. assert (cell tau (elems tau + 0 * step tau + q)) by (exists q, 0; split; [split; lia|reflexivity]).
        unfold elt. apply F3; intros H1.
        - apply (DWt (elems tau + 0 * step tau + q)); auto.
        - apply (DAt (elems tau + 0 * step tau + q)); auto.
        - apply (DAt (elems tau + 0 * step tau + q)); auto. }
      assert (Hh3 : house_res K (if has (e_opt E) ARMAS_NONNEG then ARMAS_NONNEG else 0) (M - k - 1) (elt m1 A k k)
          (fun r => elt m1 A (k + 1 + r) k) (elt m3 A k k) (elt m3 tau k 0) (fun r => elt m3 A (k + 1 + r) k)).
      { revert Hh. apply house_res_ext.
        - rewrite Ea11. reflexivity.
        - rewrite G3 by (try (split; fold M; fold N; lia); unfold inb; lia). rewrite Ea11. reflexivity.
        - rewrite T3 by lia. rewrite Et1. reflexivity.
        - intros r Hr. apply col_velt. lia.
        - intros r Hr. rewrite G3 by (try (split; fold M; fold N; lia); unfold inb; lia). apply col_velt. lia. }
      split; [|split; [lia|split; [|split; [|split]]]].
      + unfold mat_continue_3x1to2x1. cbn [fst rows armas_submatrix_unsafe armas_make]. rewrite Ct. reflexivity.
      + apply (qr_step K HF HO HE _ M N k (elt m A) (elt m1 A) (elt m3 A) (fun q => elt m1 tau q 0) (fun q => elt m3 tau q 0)) in Hh3; auto; try lia.
        * destruct (has (e_opt E) ARMAS_NONNEG); reflexivity.
        * intros i j Hi Hj. rewrite G3, G2; auto; try (split; fold M; fold N; lia); unfold inb; lia.
        * intros i j Hi Hj. rewrite G3, G2; auto; try (split; fold M; fold N; lia); unfold inb; lia.
        * intros q Hq. rewrite T3, T2 by lia. reflexivity.
        * intros r j Hr Hj. specialize (U r (j - (k + 1)) ltac:(lia) ltac:(lia)).
          unfold R in U. rewrite (row_velt A m3), (row_velt A m2) in U by lia. replace (k + 1 + (j - (k + 1))) with j in U by lia.
          assert (E1 : elt m3 A (k + r) j = vcons (elt m3 A k j) (fun i => aelt true m3 Bk i (j - (k + 1))) r).
          { unfold vcons. destruct (r =? 0) eqn:Er; [f_equal; lia|]. unfold aelt, Bk. rewrite V_elt. f_equal; lia. }
          rewrite E1, U. rewrite T3 by lia. replace (m2 (elems t1)) with (elt m2 tau k 0) by (rewrite Et1; reflexivity).
          replace (M - k - 1 + 1) with (M - k) by lia. apply reflect_ext; [| |lia].
          -- intros p Hp. unfold vcons. destruct (p =? 0) eqn:Ep; auto. unfold P. rewrite col_velt by lia.
             symmetry. apply G3; [split; fold M; fold N; lia|unfold inb; lia].
          -- intros p Hp. unfold vcons. destruct (p =? 0) eqn:Ep.
             ++ apply G2; [split; fold M; fold N; lia|unfold inb; lia].
             ++ unfold aelt, Bk. rewrite V_elt. replace (k + 1 + (j - (k + 1))) with j by lia.
                apply G2; [split; fold M; fold N; lia|unfold inb; lia].
      + intros Hf q Hq. destruct (Z.eq_dec q k) as [->|Hne].
        * rewrite Hf in Hh3. apply house_sign in Hh3; auto.
        * rewrite T3, T2, G3, G2 by (try (split; fold M; fold N; lia); unfold inb; lia). apply IN; auto; lia.
      + intros q Hq. rewrite T3, T2 by lia. apply It. lia.
      + intros a H1 H2 H3. rewrite F3, F2; auto; intros Hc; subst; auto.
    - intros k s m1 Hk1 Hk2 (_ & Hk3 & IQ & IN & It & IF). apply wp_ret. assert (k = Z.min M N) as -> by (fold M in Hk2; fold N in Hk2; lia).
      apply HQ; auto.
  Qed.
End Q.
