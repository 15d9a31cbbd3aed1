(* Properties_House.v: Householder reflectors (C75, C76, C77). *)
From Coq Require Import ZArith Lia Bool ZifyBool Ring Field Reals Lra.
From Verif Require Import Mem MView SpecView PView PSub Hoare MFlags MBase MCopy PUpd PCopy
  MNum SpecNum MBlas1 PSum PBlas1 MElem PElem MBlas2 PMvec PBlas2 PFrame MTrsm PTrsm PNorm MLap PLap
  MHouse SpecHouse SpecQr PHouse PHouse2 PQrA PQr Inst
  Properties_Copy Properties_Blas1 Properties_Gemm Properties_Lu.
Local Open Scope Z_scope.
Local Open Scope prog_scope.

Ltac lia := nobool; zlia.

(* the operands of armas_house: a11 and tau hold at least one element, x is a vector, all apart *)
Definition house_args (L : Z -> bool) (a11 x tau : view) : Prop :=
  vok L x /\ mok L a11 /\ mok L tau /\ 1 <= rows a11 /\ 1 <= cols a11 /\ 1 <= rows tau /\ 1 <= cols tau /\
  disjoint x a11 /\ disjoint x tau /\ disjoint a11 tau.

Lemma elt00 : forall {T} (m : Z -> T) A, elt m A 0 0 = m (elems A).
Proof. intros. unfold elt. f_equal. lia. Qed.

Lemma cell00 : forall A, 1 <= rows A -> 1 <= cols A -> cell A (elems A).
Proof. intros A H1 H2. exists 0, 0. split; [split; lia|lia]. Qed.

Section P.
  Context {T : Type} (K : num T).
  Hypotheses (HF : is_field K) (HO : is_ordered K) (HE : eqb_ok K) (HS : sqrt_ok K).
  Let HF' : field_theory (zero K) (one K) (add K) (mul K) (sub K) (opp K) (div K)
    (fun x => div K (one K) x) eq := HF.
  Add Field KfieldPH : HF'.
  Let HR : is_ring K := Field_theory.F_R HF.
  Local Notation "0'" := (zero K).
  Local Notation "1'" := (one K).

  Lemma house_unit : forall safmin steps L a11 x tau flags m,
    ltb K 0' safmin = true -> steps_ok K safmin steps -> house_args L a11 x tau -> has flags ARMAS_UNIT = true ->
    exists m', armas_house K safmin steps a11 x tau flags L m = Some (0, m') /\
      let n := vlen x in let a := elt m a11 0 0 in let b := elt m' a11 0 0 in let t := elt m' tau 0 0 in
      let H := reflect K (n + 1) t (vcons 1' (velt m' x)) in
      isometry K (n + 1) H /\ (forall z i, H (H z) i = z i) /\
      mul K b b = add K (mul K a a) (inner K n (velt m x) (velt m x)) /\
      ((exists k, 0 <= k < n /\ velt m x k <> 0') ->
         (forall i, 0 <= i < n + 1 -> H (vcons a (velt m x)) i =
            vcons (if has flags ARMAS_HHNEGATIVE then opp K b else b) (fun _ => 0') i) /\
         (has flags ARMAS_NONNEG = true -> ltb K b 0' = false)) /\
      ((forall k, 0 <= k < n -> velt m x k = 0') -> t = 0' /\ b = a /\ forall k, 0 <= k < n -> velt m' x k = 0') /\
      (forall c, ~ cell x c -> c <> elems a11 -> c <> elems tau -> m' c = m c).
  Proof.
    intros safmin steps L a11 x tau flags m Hs Hst (V & OA & OT & A1 & A2 & T1 & T2 & D1 & D2 & D3) Hu.
    pose proof (cell00 a11 A1 A2) as Ca. pose proof (cell00 tau T1 T2) as Ct.
    assert (Hn : 0 <= vlen x) by (apply vlen_nonneg; apply V).
    assert (W : wp (armas_house K safmin steps a11 x tau flags) L m (fun r m' => r = 0 /\
      house_res K flags (vlen x) (m (elems a11)) (velt m x) (m' (elems a11)) (m' (elems tau)) (velt m' x) /\
      (forall c, ~ cell x c -> c <> elems a11 -> c <> elems tau -> m' c = m c))).
    { unfold armas_house. rewrite Hu. apply (internal_householder_wp K HF HO HE HS); auto.
      - apply OA. auto.
      - apply OT. auto.
      - Lia.nia.
      - intros H. apply (D1 _ H Ca).
      - intros H. apply (D2 _ H Ct).
      - intros H. rewrite <- H in Ct. apply (D3 _ Ca Ct). }
    destruct W as (r & m' & R & -> & Hh & Fr). exists m'. split; [exact R|]. cbv zeta. rewrite !elt00.
    pose proof (house_tok K HF _ _ _ _ _ _ _ Hh) as TK. unfold tok in TK.
    split; [apply (reflect_iso K HF); exact TK|]. split; [intros z i; apply (reflect_invol K HF); exact TK|].
    assert (X0 : inner K (vlen x) (velt m x) (velt m x) = 0' <-> forall k, 0 <= k < vlen x -> velt m x k = 0').
    { split; [apply (inner0 K HF HO HE)|]. intros H. unfold inner. apply (vsum_zero K HR). intros k Hk. rewrite H by auto. ring. }
    split; [|split; [|split; auto]].
    - unfold house_res in Hh. destruct (eqb K (inner K (vlen x) (velt m x) (velt m x)) 0') eqn:E.
      + apply HE in E. destruct Hh as (_ & -> & _). rewrite E. ring.
      + destruct Hh as (H1 & H2 & _).
        pose proof (reflect_iso K HF (vlen x + 1) (m' (elems tau)) (vcons 1' (velt m' x)) TK (vcons (m (elems a11)) (velt m x)) (vcons (m (elems a11)) (velt m x))) as I.
        rewrite (inner_vcons K HF (vlen x) (m (elems a11))) in I by auto. rewrite <- I.
        rewrite (inner_ext K (vlen x + 1) _ (vcons (neg_of K flags (m' (elems a11))) (fun _ => 0')) _ (vcons (neg_of K flags (m' (elems a11))) (fun _ => 0')) H1 H1).
        rewrite (inner_vcons K HF) by auto. unfold inner at 1. rewrite (vsum_zero K HR) by (intros; ring).
        unfold neg_of. destruct (has flags ARMAS_HHNEGATIVE); ring.
    - intros (k & Hk & Hx). unfold house_res in Hh. destruct (eqb K (inner K (vlen x) (velt m x) (velt m x)) 0') eqn:E.
      + apply HE in E. exfalso. apply Hx. apply X0; auto.
      + destruct Hh as (H1 & _ & H3). split; auto.
    - intros Hx. apply X0 in Hx. unfold house_res in Hh. rewrite (proj2 (HE _ _) Hx) in Hh. destruct Hh as (-> & -> & Hv).
      split; auto. split; auto. intros k Hk. rewrite Hv by auto. apply X0; auto.
  Qed.

  Lemma house_unscaled : forall safmin steps L a11 x tau flags m,
    house_args L a11 x tau -> has flags ARMAS_UNIT = false ->
    exists m', armas_house K safmin steps a11 x tau flags L m = Some (0, m') /\
      let n := vlen x in let a := elt m a11 0 0 in let v0 := elt m' a11 0 0 in let b := elt m' tau 0 0 in
      let H := reflect K (n + 1) (add K 1' 1') (vcons v0 (velt m' x)) in
      ((exists k, 0 <= k < n /\ velt m x k <> 0') ->
         isometry K (n + 1) H /\ (forall z i, H (H z) i = z i) /\
         (forall i, 0 <= i < n + 1 -> H (vcons a (velt m x)) i = vcons b (fun _ => 0') i) /\
         (has flags ARMAS_NONNEG = true -> ltb K b 0' = false)) /\
      ((forall k, 0 <= k < n -> velt m x k = 0') -> b = a /\ v0 = a /\ forall k, 0 <= k < n -> velt m' x k = 0') /\
      (forall c, ~ cell x c -> c <> elems a11 -> c <> elems tau -> m' c = m c).
  Proof.
    intros safmin steps L a11 x tau flags m (V & OA & OT & A1 & A2 & T1 & T2 & D1 & D2 & D3) Hu.
    pose proof (cell00 a11 A1 A2) as Ca. pose proof (cell00 tau T1 T2) as Ct.
    assert (Hn : 0 <= vlen x) by (apply vlen_nonneg; apply V).
    assert (W : wp (armas_house K safmin steps a11 x tau flags) L m (fun r m' => r = 0 /\
      (if eqb K (inner K (vlen x) (velt m x) (velt m x)) 0'
       then m' (elems tau) = m (elems a11) /\ m' (elems a11) = m (elems a11) /\ (forall k, 0 <= k < vlen x -> velt m' x k = velt m x k)
       else unscaled_res' K flags (vlen x) (m (elems a11)) (velt m x) (m' (elems tau)) (m' (elems a11)) (velt m' x)) /\
      (forall c, ~ cell x c -> c <> elems a11 -> c <> elems tau -> m' c = m c))).
    { unfold armas_house. rewrite Hu. apply (unscaled_wp K HF HO HE HS); auto.
      - apply OA. auto.
      - apply OT. auto.
      - intros H. apply (D1 _ H Ca).
      - intros H. apply (D2 _ H Ct).
      - intros H. rewrite <- H in Ct. apply (D3 _ Ca Ct). }
    destruct W as (r & m' & R & -> & Hh & Fr). exists m'. split; [exact R|]. cbv zeta. rewrite !elt00.
    assert (X0 : inner K (vlen x) (velt m x) (velt m x) = 0' <-> forall k, 0 <= k < vlen x -> velt m x k = 0').
    { split; [apply (inner0 K HF HO HE)|]. intros H. unfold inner. apply (vsum_zero K HR). intros k Hk. rewrite H by auto. ring. }
    split; [|split; auto].
    - intros (k & Hk & Hx). destruct (eqb K (inner K (vlen x) (velt m x) (velt m x)) 0') eqn:E.
      + apply HE in E. exfalso. apply Hx. apply X0; auto.
      + destruct Hh as (H1 & H2 & H3).
        assert (TK : tok K (vlen x + 1) (add K 1' 1') (vcons (m' (elems a11)) (velt m' x))) by (unfold tok; rewrite H2; ring).
        split; [apply (reflect_iso K HF); exact TK|]. split; [intros z i; apply (reflect_invol K HF); exact TK|]. split; auto.
    - intros Hx. apply X0 in Hx. rewrite (proj2 (HE _ _) Hx) in Hh. destruct Hh as (-> & -> & Hv).
      split; auto. split; auto. intros k Hk. rewrite Hv by auto. apply X0; auto.
  Qed.

  Lemma houseapply2x1_ok : forall (E : lenv) L a1 A2 tau v w flags m,
    let left := has flags ARMAS_LEFT in let n := vlen a1 in
    2 <= e_b2 E -> n < Z.of_nat (e_fuel E) -> rows A2 < Z.of_nat (e_fuel E) ->
    vok L v -> vok L a1 -> mok L A2 -> mok L (wvec n w) -> mok L tau -> 1 <= rows tau -> 1 <= cols tau ->
    n <= rows w * cols w ->
    disjoint (wvec n w) v -> disjoint (wvec n w) a1 -> disjoint (wvec n w) A2 ->
    disjoint a1 A2 -> disjoint a1 v -> disjoint A2 v ->
    (if left then cols A2 else rows A2) = n -> (if left then rows A2 else cols A2) = vlen v ->
    exists m', armas_houseapply2x1 K E a1 A2 (Some tau) v w flags L m = Some (0, m') /\
      (forall i j, 0 <= i < vlen v + 1 -> 0 <= j < n ->
         vcons (velt m' a1 j) (fun i => aelt left m' A2 i j) i =
         reflect K (vlen v + 1) (elt m tau 0 0) (vcons 1' (velt m v)) (vcons (velt m a1 j) (fun i => aelt left m A2 i j)) i) /\
      (forall a, ~ cell (wvec n w) a -> ~ cell a1 a -> ~ cell A2 a -> m' a = m a).
  Proof.
    intros E L a1 A2 tau v w flags m left n HB Hf1 Hf2 Vv Va MA MW MT T1 T2 Sw D1 D2 D3 D4 D5 D6 E1 E2.
    assert (Hn0 : 0 <= n) by (apply vlen_nonneg; apply Va).
    assert (W : wp (armas_houseapply2x1 K E a1 A2 (Some tau) v w flags) L m (fun r m' => r = 0 /\
      (forall i j, 0 <= i < vlen v + 1 -> 0 <= j < n ->
         vcons (velt m' a1 j) (fun i => aelt left m' A2 i j) i =
         reflect K (vlen v + 1) (elt m tau 0 0) (vcons 1' (velt m v)) (vcons (velt m a1 j) (fun i => aelt left m A2 i j)) i) /\
      (forall a, ~ cell (wvec n w) a -> ~ cell a1 a -> ~ cell A2 a -> m' a = m a))).
    { unfold armas_houseapply2x1. change (armas_size a1) with n. unfold armas_size. replace (rows w * cols w <? n) with false by lia.
      unfold armas_apply_householder2x1. wbind. cbn [tau_value]. unfold armas_get, armas_size.
      replace (rows tau * cols tau =? 0) with false by Lia.nia. cbn [Z.ltb Z.compare]. rewrite addr0. apply wp_rd.
      { apply MT. apply cell00; auto. }
      rewrite <- elt00. change (armas_make n 1 n (elems w)) with (wvec n w).
      assert (Ew : vlen (wvec n w) = n) by (unfold vlen, wvec; cbn [rows cols armas_make]; lia).
      apply (apply2x1_wp K HF HE); auto; try (rewrite Ew; auto; fail).
      apply (wvec_vok n); auto. lia. }
    destruct W as (r & m' & R & -> & H1 & H2). exists m'. auto.
  Qed.

  Lemma submat : forall A r c nr nc, armas_size A <> 0 -> 0 <= r -> 0 <= c -> 0 <= nr -> 0 <= nc -> 0 <= step A ->
    armas_submatrix A r c nr nc = subm A r c nr nc.
  Proof.
    intros A r c nr nc H H1 H2 H3 H4 H5. unfold armas_submatrix, armas_submatrix_ext, armas_submatrix_unsafe.
    replace (armas_size A =? 0) with false by lia. replace (r <? 0) with false by lia. replace (c <? 0) with false by lia.
    replace (nr <? 0) with false by lia. replace (nc <? 0) with false by lia. replace (step A <? 0) with false by lia. reflexivity.
  Qed.

  Lemma houseapply_square : forall (E : lenv) L A tau v w flags m,
    let left := has flags ARMAS_LEFT in let n := rows A in
    2 <= e_b2 E -> n < Z.of_nat (e_fuel E) -> cols A = n -> 2 <= n ->
    mok L A -> vok L v -> vlen v = n - 1 -> mok L (wvec n w) -> n <= rows w * cols w ->
    mok L tau -> 1 <= rows tau -> 1 <= cols tau ->
    disjoint (wvec n w) v -> disjoint (wvec n w) A -> disjoint A v ->
    has flags ARMAS_UNIT = true -> has flags ARMAS_RIGHT = negb left ->
    exists m', armas_houseapply K E A (Some tau) v (Some w) flags L m = Some (0, m') /\
      (forall i j, pos A i j -> elt m' A i j =
         if left then reflect K n (elt m tau 0 0) (vcons 1' (velt m v)) (fun k => elt m A k j) i
         else reflect K n (elt m tau 0 0) (vcons 1' (velt m v)) (fun k => elt m A i k) j) /\
      (forall a, ~ cell (wvec n w) a -> ~ cell A a -> m' a = m a).
  Proof.
    intros E L A tau v w flags m left n HB Hf Hc Hn OA Vv Ev MW Sw MT T1 T2 D1 D2 D3 Hu HRt.
    pose proof OA as ((A1 & A2 & A3) & _). fold n in A1, A3. rewrite Hc in A2.
    set (a1 := if left then subm A 0 0 1 n else subm A 0 0 n 1).
    set (B := if left then subm A 1 0 (n - 1) n else subm A 0 1 n (n - 1)).
    assert (i1 : if left then inA A 0 0 1 n else inA A 0 0 n 1) by (destruct left; repeat split; fold n; lia).
    assert (i2 : if left then inA A 1 0 (n - 1) n else inA A 0 1 n (n - 1)) by (destruct left; repeat split; fold n; lia).
    assert (Va : vok L a1).
    { unfold a1. destruct left; (split; [|apply (V_ok L A OA); auto]); [left|right]; reflexivity. }
    assert (MB : mok L B) by (unfold B; destruct left; apply (V_ok L A OA); auto).
    assert (l1 : vlen a1 = n) by (unfold a1; destruct left; [apply (row_len A)|apply (col_len A)]).
    assert (aA : forall a, cell a1 a -> cell A a) by (intros a; unfold a1; destruct left; apply (V_in L A OA); auto).
    assert (bA : forall a, cell B a -> cell A a) by (intros a; unfold B; destruct left; apply (V_in L A OA); auto).
    assert (Dab : disjoint a1 B) by (unfold a1, B; destruct left; apply (V_disj L A OA); auto; lia).
    assert (RB : rows B = if left then n - 1 else n) by (unfold B; destruct left; reflexivity).
    assert (CB : cols B = if left then n else n - 1) by (unfold B; destruct left; reflexivity).
    destruct (houseapply2x1_ok E L a1 B tau v w flags m) as (m' & R & U & F); auto; fold left; rewrite ?l1; auto.
    - rewrite RB. destruct left; lia.
    - intros a H1 H2. apply (D2 a); auto.
    - intros a H1 H2. apply (D2 a); auto.
    - intros a H1 H2. apply (D3 a); auto.
    - intros a H1 H2. apply (D3 a); auto.
    - rewrite CB, RB. destruct left; reflexivity.
    - rewrite CB, RB. destruct left; lia.
    - exists m'. split; [|split].
      + assert (Hsz : armas_size A <> 0) by (unfold armas_size; fold n; rewrite Hc; Lia.nia).
        assert (Ep : (if has flags ARMAS_RIGHT && negb (has flags ARMAS_LEFT) then
                  (armas_submatrix A 0 0 (rows A) 1, armas_submatrix A 0 1 (rows A) (cols A - 1))
                else
                  (armas_submatrix A 0 0 1 (cols A), armas_submatrix A 1 0 (rows A - 1) (cols A))) = (a1, B)).
        { fold left. rewrite HRt. fold n. rewrite Hc. unfold a1, B. destruct left; cbn [negb andb];
            rewrite !submat by (auto; lia); reflexivity. }
        unfold armas_houseapply. cbv zeta. rewrite Ep. rewrite Hu. cbn [orb Z.eqb negb].
        replace (armas_isvector A) with false by (unfold armas_isvector; fold n; rewrite Hc; lia).
        unfold armas_size. fold n. rewrite Hc. change (rows v * cols v) with (vlen v). rewrite Ev.
        replace (n - 1 =? n - 1) with true by lia. replace (if has flags ARMAS_RIGHT then true else true) with true by (destruct (has flags ARMAS_RIGHT); reflexivity).
        cbn [negb]. replace (rows w * cols w <? n - 1 + 1) with false by lia.
        revert R. unfold armas_houseapply2x1. change (armas_size a1) with (vlen a1). rewrite l1. unfold armas_size.
        replace (rows w * cols w <? n) with false by lia. change (rows a1 * cols a1) with (vlen a1). rewrite l1. auto.
      + rewrite l1, Ev in U. replace (n - 1 + 1) with n in U by lia. intros i j (Hi & Hj). fold n in Hi. rewrite Hc in Hj. unfold a1, B, aelt in U. fold left in U. destruct left.
        * specialize (U i j Hi Hj). rewrite !(row_velt A) in U by lia.
          assert (G : forall (mm : Z -> T) i, 0 <= i < n -> vcons (elt mm A 0 (0 + j)) (fun i => elt mm (subm A 1 0 (n - 1) n) i j) i = elt mm A i j).
          { intros mm k Hk. unfold vcons. destruct (k =? 0) eqn:Ek; [f_equal; lia|]. rewrite V_elt. f_equal; lia. }
          rewrite G in U by auto. rewrite U. apply reflect_ext; auto.
        * specialize (U j i Hj Hi). rewrite !(col_velt A) in U by lia.
          assert (G : forall (mm : Z -> T) k, 0 <= k < n -> vcons (elt mm A (0 + i) 0) (fun k => elt mm (subm A 0 1 n (n - 1)) i k) k = elt mm A i k).
          { intros mm k Hk. unfold vcons. destruct (k =? 0) eqn:Ek; [f_equal; lia|]. rewrite V_elt. f_equal; lia. }
          rewrite G in U by auto. rewrite U. apply reflect_ext; auto.
      + rewrite l1 in F. intros a H1 H2. apply F; auto.
  Qed.

  Lemma subvec_velt : forall (m : Z -> T) A k, isvec A -> wf A -> 1 <= vlen A -> 0 <= k < vlen A - 1 ->
    velt m (armas_subvector A 1 (vlen A - 1)) k = velt m A (k + 1).
  Proof.
    intros m A k V (W1 & W2 & W3) H1 Hk. unfold armas_subvector, velt, vec_pos. rewrite (proj2 (isvector_isvec _) V). cbn [negb].
    destruct (rows A =? 1) eqn:E1.
    - rewrite submat by (try lia; unfold armas_size, vlen in *; lia). change (rows (subm A 0 1 1 (vlen A - 1))) with 1. cbn [Z.eqb Pos.eqb fst snd].
      rewrite V_elt. f_equal; lia.
    - rewrite submat by (try lia; unfold armas_size, vlen in *; lia). change (rows (subm A 1 0 (vlen A - 1) 1)) with (vlen A - 1).
      destruct (vlen A - 1 =? 1) eqn:E2; cbn [fst snd]; rewrite V_elt; f_equal; lia.
  Qed.

  (* a subvector of a vector *)
  Lemma subvec_ok : forall L A, vok L A -> 1 <= vlen A -> let S := armas_subvector A 1 (vlen A - 1) in
    vok L S /\ vlen S = vlen A - 1 /\ (forall a, cell S a -> cell A a) /\ ~ cell S (elems A).
  Proof.
    intros L A (V & W & AL) H1. pose proof W as (W1 & W2 & W3). cbv zeta. unfold armas_subvector. rewrite (proj2 (isvector_isvec _) V). cbn [negb].
    assert (Hsz : armas_size A <> 0) by (unfold armas_size, vlen in *; lia).
    assert (OA : mok L A) by (split; auto).
    destruct (rows A =? 1) eqn:E1.
    - rewrite submat by (try lia; unfold armas_size, vlen in *; lia).
      assert (I : inA A 0 1 1 (vlen A - 1)) by (unfold vlen in *; repeat split; try lia; Lia.nia).
      split; [split; [left; reflexivity|apply (V_ok L A OA); auto]|]. split; [apply (row_len A)|]. split; [intros a; apply (V_in L A OA); auto|].
      replace (elems A) with (elems A + 0 * step A + 0) by lia. apply subm_notin; auto; [split; unfold vlen in *; Lia.nia|unfold inb; lia].
    - assert (cols A = 1) as Ec by (destruct V; lia).
      rewrite submat by (try lia; unfold armas_size, vlen in *; lia).
      assert (I : inA A 1 0 (vlen A - 1) 1) by (unfold vlen in *; repeat split; try lia; Lia.nia).
      split; [split; [right; reflexivity|apply (V_ok L A OA); auto]|]. split; [apply (col_len A)|]. split; [intros a; apply (V_in L A OA); auto|].
      replace (elems A) with (elems A + 0 * step A + 0) by lia. apply subm_notin; auto; [split; unfold vlen in *; Lia.nia|unfold inb; lia].
  Qed.

  Lemma houseapply_vector : forall (E : lenv) L A tau v w flags m,
    0 <= e_b1 E -> vlen A < Z.of_nat (e_fuel E) -> vok L A -> 1 <= vlen A -> vok L v ->
    vlen v = (if has flags ARMAS_UNIT then vlen A - 1 else vlen A) ->
    mok L tau -> 1 <= rows tau -> 1 <= cols tau -> disjoint A v ->
    exists m', armas_houseapply K E A (Some tau) v w flags L m = Some (0, m') /\
      (forall k, 0 <= k < vlen A -> velt m' A k =
         if has flags ARMAS_UNIT then reflect K (vlen A) (elt m tau 0 0) (vcons 1' (velt m v)) (velt m A) k
         else reflect K (vlen A) (add K 1' 1') (velt m v) (velt m A) k) /\
      (forall a, ~ cell A a -> m' a = m a).
  Proof.
    intros E L A tau v w flags m HB Hf VA HA Vv Ev MT T1 T2 D.
    pose proof VA as (IV & WA & AL). destruct (subvec_ok L A VA HA) as (VS & lS & SA & NS).
    assert (D0 : disjoint (armas_subvector A 1 (vlen A - 1)) v) by (intros a H1 H2; apply (D a); auto).
    assert (V0 : velt m A 0 = m (elems A)).
    { unfold velt, vec_pos, elt. destruct (rows A =? 1); cbn [fst snd]; f_equal; lia. }
    assert (CA : cell A (elems A)).
    { unfold vlen in HA. destruct WA as (W1 & W2 & W3). apply cell00; Lia.nia. }
    assert (W : wp (armas_houseapply K E A (Some tau) v w flags) L m (fun r m' => r = 0 /\
      (forall k, 0 <= k < vlen A -> velt m' A k =
         if has flags ARMAS_UNIT then reflect K (vlen A) (elt m tau 0 0) (vcons 1' (velt m v)) (velt m A) k
         else reflect K (vlen A) (add K 1' 1') (velt m v) (velt m A) k) /\
      (forall a, ~ cell A a -> m' a = m a))).
    { unfold armas_houseapply. cbv zeta. rewrite (proj2 (isvector_isvec _) IV). change (armas_size A) with (vlen A). change (armas_size v) with (vlen v).
      cbn [orb]. destruct (has flags ARMAS_UNIT); cbn [Z.eqb negb].
      - rewrite Ev. replace (vlen A - 1 =? vlen A - 1) with true by lia. cbn [negb].
        set (S := armas_subvector A 1 (vlen A - 1)) in *.
        wbind. unfold l_dot. eexists _, m. rewrite (C14_dot T K HR); try apply VS; try apply Vv; try (rewrite lS); auto; try lia. split; [reflexivity|].
        unfold armas_get_unsafe, armas_set_unsafe. rewrite !addr0. wbind. apply wp_rd; [apply AL; auto|]. wbind. apply wp_rd; [apply MT; apply cell00; auto|].
        rewrite <- (elt00 m tau). set (t := elt m tau 0 0). wbind. apply wp_rd; [apply AL; auto|].
        match goal with |- context [opp K ?e] => set (al := e) end.
        wbind. apply wp_put; [apply AL; auto|]. wbind. apply (axpy_wp K HF); auto; [lia|]. intros m2 R1 R2. apply wp_ret.
        assert (Eal : al = mul K t (inner K (vlen A) (vcons 1' (velt m v)) (velt m A))).
        { unfold al. replace (vlen A) with (vlen A - 1 + 1) at 2 by lia. unfold inner. rewrite (vsum_S0 K HF) by lia.
          rewrite vcons_0, V0.
          rewrite (vsum_ext K (vlen A - 1) (fun k => mul K (vcons 1' (velt m v) (k + 1)) (velt m A (k + 1))) (fun k => mul K (velt m S k) (velt m v k))).
          - ring.
          - intros k Hk. rewrite vcons_S by lia. unfold S. rewrite subvec_velt by (auto; lia). ring. }
        split; [reflexivity|]. split.
        + intros k Hk. unfold reflect.
          assert (Er : forall z c, sub K z (mul K (mul K t c) (inner K (vlen A) (vcons 1' (velt m v)) (velt m A))) = sub K z (mul K c al)) by (intros; rewrite Eal; ring).
          rewrite Er. unfold vcons. destruct (k =? 0) eqn:Ek.
          * replace k with 0 by lia. replace (velt m2 A 0) with (m2 (elems A)).
            -- rewrite R2 by auto. rewrite put_same. rewrite V0. ring.
            -- unfold velt, vec_pos, elt. destruct (rows A =? 1); cbn [fst snd]; f_equal; lia.
          * replace k with (k - 1 + 1) at 1 2 by lia. rewrite <- !subvec_velt by (auto; lia). fold S. rewrite R1 by lia.
            assert (Eq : forall z, vok L z -> ~ cell z (elems A) -> forall p q, 0 <= q < vlen z -> velt (put m (elems A) p) z q = velt m z q).
            { intros z Vz Nz p q Hq. apply put_velt; auto. right. split; apply Vz. }
            rewrite !Eq; auto; try lia; [ring|intros Hc; apply (D _ CA Hc)].
        + intros a Ha. rewrite R2 by (intros H; apply Ha; auto). apply put_other. intros ->. auto.
      - rewrite Ev. replace (vlen A =? vlen A) with true by lia. cbn [negb].
        wbind. unfold l_dot. eexists _, m. rewrite (C14_dot T K HR); try apply VA; try apply Vv; auto. split; [reflexivity|].
        wbind. apply (axpy_wp K HF); auto. intros m2 R1 R2. apply wp_ret. split; [reflexivity|]. split; [|exact R2].
        intros k Hk. rewrite R1 by auto. unfold reflect, inner.
        rewrite (vsum_ext K (vlen A) (fun k => mul K (velt m v k) (velt m A k)) (fun k => mul K (velt m A k) (velt m v k))) by (intros; ring). ring. }
    destruct W as (r & m' & R & -> & H1 & H2). exists m'. auto.
  Qed.
End P.

(* ---- C75: armas_house with ARMAS_UNIT: H = I - tau*(1;v)*(1;v)^T ---- *)

(* H is symmetric, orthogonal and its own inverse, maps (a;x) to (+/-beta;0) with beta^2 = |(a;x)|^2,
   and beta >= 0 on request, provided x is not zero; for x = 0 H is the identity.  Nothing but
   the operands changes. *)
Theorem C75_house_unit_partial : forall T (K : num T), is_field K -> is_ordered K -> eqb_ok K -> sqrt_ok K ->
  forall safmin steps L a11 x tau flags m,
  ltb K (zero K) safmin = true -> steps_ok K safmin steps -> house_args L a11 x tau -> has flags ARMAS_UNIT = true ->
  exists m', armas_house K safmin steps a11 x tau flags L m = Some (0, m') /\
    let n := vlen x in let a := elt m a11 0 0 in let b := elt m' a11 0 0 in let t := elt m' tau 0 0 in
    let H := reflect K (n + 1) t (vcons (one K) (velt m' x)) in
    isometry K (n + 1) H /\ (forall z i, H (H z) i = z i) /\
    mul K b b = add K (mul K a a) (inner K n (velt m x) (velt m x)) /\
    ((exists k, 0 <= k < n /\ velt m x k <> zero K) ->
       (forall i, 0 <= i < n + 1 -> H (vcons a (velt m x)) i =
          vcons (if has flags ARMAS_HHNEGATIVE then opp K b else b) (fun _ => zero K) i) /\
       (has flags ARMAS_NONNEG = true -> ltb K b (zero K) = false)) /\
    ((forall k, 0 <= k < n -> velt m x k = zero K) -> t = zero K /\ b = a /\ forall k, 0 <= k < n -> velt m' x k = zero K) /\
    (forall c, ~ cell x c -> c <> elems a11 -> c <> elems tau -> m' c = m c).
Proof. intros T K HF HO HE HS. exact (house_unit K HF HO HE HS). Qed.
Print Assumptions C75_house_unit_partial.

(* numbers and steps for the examples: safmin = 1/2 *)
Definition Rsteps (b : R) : nat := Z.to_nat (up (/ b)%R).
Lemma Rsteps_ok : steps_ok Rnum (/ 2)%R Rsteps.
Proof.
  intros b Hb _. cbn in Hb. apply Rltb_iff in Hb. pose proof (Rinv_0_lt_compat b Hb) as Hi. destruct (archimed (/ b)%R) as (H1 & _).
  assert (Hu : 0 < up (/ b)%R). { apply lt_IZR. lra. }
  exists (Rsteps b). split; [split; [unfold Rsteps; Lia.lia|Lia.lia]|]. cbn.
  destruct (Rltb (b * kpow Rnum (1 / / 2) (Rsteps b))%R (/ 2)%R) eqn:E; auto. apply Rltb_iff in E. exfalso.
  assert (P : forall n, (INR n <= kpow Rnum (1 / / 2)%R n)%R /\ (1 <= kpow Rnum (1 / / 2)%R n)%R).
  { induction n as [|n (IH1 & IH2)]; [cbn; lra|]. cbn [kpow]. cbn [mul Rnum]. rewrite S_INR. lra. }
  destruct (P (Rsteps b)) as (P1 & _). unfold Rsteps at 1 in P1. rewrite INR_IZR_INZ, Z2Nat.id in P1 by lia.
  assert (b * / b <= b * kpow Rnum (1 / / 2)%R (Rsteps b))%R by (apply Rmult_le_compat_l; lra).
  rewrite Rinv_r in H by lra. lra.
Qed.

Lemma Rhalf : ltb Rnum (zero Rnum) (/ 2)%R = true. Proof. cbn. apply Rltb_iff. lra. Qed.

Definition hh_a : view := mkview 200 7 1 1.
Definition hh_x (n : Z) : view := mkview 201 7 n 1.
Definition hh_t : view := mkview 300 7 1 1.

Lemma hh_args : forall n, 0 <= n <= 6 -> house_args cp_L hh_a (hh_x n) hh_t.
Proof.
  intros n Hn. unfold house_args, vok, mok. 
  assert (forall e r, 200 <= e -> 0 <= r <= 7 -> e + 7 <= 2000 -> wf (mkview e 7 r 1) /\ allocated cp_L (mkview e 7 r 1)).
  { intros e r H1 H2 H3. split; [repeat split; cbn; lia|]. intros a (i & j & (P1 & P2) & ->). cbn [rows cols elems step] in *. unfold cp_L. lia. }
  unfold hh_a, hh_x, hh_t. repeat match goal with |- _ /\ _ => split end; try (apply H; lia); try (cbn; lia); try (right; reflexivity).
  all: intros a (i & j & (P1 & P2) & ->) (i' & j' & (Q1 & Q2) & E); cbn [rows cols elems step] in *; lia.
Qed.

(* (3;4,0) is mapped to (+/-5;0,0) *)
Definition hh_m (a : Z) : R := if a =? 200 then 3%R else if a =? 201 then 4%R else 0%R.
Example C75_nonvacuous : exists m', armas_house Rnum (/ 2)%R Rsteps hh_a (hh_x 2) hh_t (Z.lor ARMAS_UNIT ARMAS_NONNEG) cp_L hh_m = Some (0, m') /\
  elt m' hh_a 0 0 = 5%R.
Proof.
  destruct (C75_house_unit_partial R Rnum R_field R_ordered R_eqb R_sqrt_ok (/ 2)%R Rsteps cp_L hh_a (hh_x 2) hh_t (Z.lor ARMAS_UNIT ARMAS_NONNEG) hh_m)
    as (m' & R1 & _ & _ & R2 & R3 & _); [apply Rhalf|apply Rsteps_ok|apply hh_args; lia|reflexivity|].
  exists m'. split; [exact R1|].
  destruct R3 as (_ & R4). { exists 0. split; [cbn; lia|]. change (velt hh_m (hh_x 2) 0) with 4%R. cbn. lra. }
  specialize (R4 eq_refl). set (b := elt m' hh_a 0 0) in *. clearbody b.
  assert (E : inner Rnum (vlen (hh_x 2)) (velt hh_m (hh_x 2)) (velt hh_m (hh_x 2)) = 16%R) by (cbv -[Rplus Rmult IZR]; lra).
  rewrite E in R2. change (elt hh_m hh_a 0 0) with 3%R in R2. cbn in R2, R4. destruct (Rltb b 0) eqn:Eb; [discriminate|].
  assert (~ (b < 0)%R) by (intros Hb; apply Rltb_iff in Hb; congruence).
  assert ((b - 5) * (b + 5) = 0)%R by lra. apply Rmult_integral in H0. lra.
Qed.

(* with x = 0 the request for a non-negative beta is ignored *)
Theorem C75_house_nonneg_refuted : ~ forall T (K : num T), is_field K -> is_ordered K -> eqb_ok K -> sqrt_ok K ->
  forall safmin steps L a11 x tau flags m r m', ltb K (zero K) safmin = true -> steps_ok K safmin steps ->
  house_args L a11 x tau -> has flags ARMAS_UNIT = true -> has flags ARMAS_NONNEG = true ->
  armas_house K safmin steps a11 x tau flags L m = Some (r, m') -> ltb K (elt m' a11 0 0) (zero K) = false.
Proof.
  intros H.
  destruct (C75_house_unit_partial R Rnum R_field R_ordered R_eqb R_sqrt_ok (/ 2)%R Rsteps cp_L hh_a (hh_x 2) hh_t (Z.lor ARMAS_UNIT ARMAS_NONNEG)
     (fun a => if a =? 200 then (-1)%R else 0%R)) as (m' & R1 & _ & _ & _ & _ & R2 & _); [apply Rhalf|apply Rsteps_ok|apply hh_args; lia|reflexivity|].
  apply H in R1; [|apply R_field|apply R_ordered|apply R_eqb|apply R_sqrt_ok|apply Rhalf|apply Rsteps_ok|apply hh_args; lia|reflexivity|reflexivity].
  destruct R2 as (_ & R2 & _).
  { intros k Hk. change (vlen (hh_x 2)) with 2 in Hk. assert (k = 0 \/ k = 1) as [-> | ->] by lia; reflexivity. }
  rewrite R2 in R1. cbn in R1. assert (Rltb (-1) 0 = true) by (apply Rltb_iff; lra). congruence.
Qed.
Print Assumptions C75_house_nonneg_refuted.

(* with x = 0 the request for H(a;x) = (-beta;0) is ignored *)
Theorem C75_house_negative_refuted : ~ forall T (K : num T), is_field K -> is_ordered K -> eqb_ok K -> sqrt_ok K ->
  forall safmin steps L a11 x tau flags m r m', ltb K (zero K) safmin = true -> steps_ok K safmin steps ->
  house_args L a11 x tau -> has flags ARMAS_UNIT = true -> has flags ARMAS_HHNEGATIVE = true ->
  armas_house K safmin steps a11 x tau flags L m = Some (r, m') ->
  reflect K (vlen x + 1) (elt m' tau 0 0) (vcons (one K) (velt m' x)) (vcons (elt m a11 0 0) (velt m x)) 0 = opp K (elt m' a11 0 0).
Proof.
  intros H.
  destruct (C75_house_unit_partial R Rnum R_field R_ordered R_eqb R_sqrt_ok (/ 2)%R Rsteps cp_L hh_a (hh_x 2) hh_t (Z.lor ARMAS_UNIT ARMAS_HHNEGATIVE)
     (fun a => if a =? 200 then 1%R else 0%R)) as (m' & R1 & _ & _ & _ & _ & R2 & _); [apply Rhalf|apply Rsteps_ok|apply hh_args; lia|reflexivity|].
  apply H in R1; [|apply R_field|apply R_ordered|apply R_eqb|apply R_sqrt_ok|apply Rhalf|apply Rsteps_ok|apply hh_args; lia|reflexivity|reflexivity].
  destruct R2 as (R2 & R3 & _).
  { intros k Hk. change (vlen (hh_x 2)) with 2 in Hk. assert (k = 0 \/ k = 1) as [-> | ->] by lia; reflexivity. }
  rewrite R3 in R1. unfold reflect in R1. rewrite R2 in R1. rewrite !vcons_0 in R1. unfold elt in R1. cbn in R1. lra.
Qed.
Print Assumptions C75_house_negative_refuted.

(* ---- C76: armas_house without ARMAS_UNIT: H = I - 2*v*v^T ---- *)

Theorem C76_house_unscaled_partial : forall T (K : num T), is_field K -> is_ordered K -> eqb_ok K -> sqrt_ok K ->
  forall safmin steps L a11 x tau flags m,
  house_args L a11 x tau -> has flags ARMAS_UNIT = false ->
  exists m', armas_house K safmin steps a11 x tau flags L m = Some (0, m') /\
    let n := vlen x in let a := elt m a11 0 0 in let v0 := elt m' a11 0 0 in let b := elt m' tau 0 0 in
    let H := reflect K (n + 1) (add K (one K) (one K)) (vcons v0 (velt m' x)) in
    ((exists k, 0 <= k < n /\ velt m x k <> zero K) ->
       isometry K (n + 1) H /\ (forall z i, H (H z) i = z i) /\
       (forall i, 0 <= i < n + 1 -> H (vcons a (velt m x)) i = vcons b (fun _ => zero K) i) /\
       (has flags ARMAS_NONNEG = true -> ltb K b (zero K) = false)) /\
    ((forall k, 0 <= k < n -> velt m x k = zero K) -> b = a /\ v0 = a /\ forall k, 0 <= k < n -> velt m' x k = zero K) /\
    (forall c, ~ cell x c -> c <> elems a11 -> c <> elems tau -> m' c = m c).
Proof. intros T K HF HO HE HS. exact (house_unscaled K HF HO HE HS). Qed.
Print Assumptions C76_house_unscaled_partial.

Example C76_nonvacuous : exists m', armas_house Rnum (/ 2)%R Rsteps hh_a (hh_x 2) hh_t 0 cp_L hh_m = Some (0, m') /\
  isometry Rnum 3 (reflect Rnum 3 2%R (vcons (elt m' hh_a 0 0) (velt m' (hh_x 2)))).
Proof.
  destruct (C76_house_unscaled_partial R Rnum R_field R_ordered R_eqb R_sqrt_ok (/ 2)%R Rsteps cp_L hh_a (hh_x 2) hh_t 0 hh_m)
    as (m' & R1 & R2 & _); [apply hh_args; lia|reflexivity|].
  exists m'. split; [exact R1|]. destruct R2 as (R2 & _). { exists 0. split; [cbn; lia|]. change (velt hh_m (hh_x 2) 0) with 4%R. cbn. lra. } exact R2.
Qed.

(* with x = 0 and a = 2 the routine returns success, but I - 2*v*v^T is not orthogonal and does not map (a;0) to (beta;0) *)
Theorem C76_house_unscaled_refuted : ~ forall T (K : num T), is_field K -> is_ordered K -> eqb_ok K -> sqrt_ok K ->
  forall safmin steps L a11 x tau flags m m', house_args L a11 x tau -> has flags ARMAS_UNIT = false ->
  armas_house K safmin steps a11 x tau flags L m = Some (0, m') ->
  let H := reflect K (vlen x + 1) (add K (one K) (one K)) (vcons (elt m' a11 0 0) (velt m' x)) in
  isometry K (vlen x + 1) H \/ H (vcons (elt m a11 0 0) (velt m x)) 0 = elt m' tau 0 0.
Proof.
  intros H. set (m := fun a : Z => if a =? 200 then 2%R else 0%R).
  destruct (C76_house_unscaled_partial R Rnum R_field R_ordered R_eqb R_sqrt_ok (/ 2)%R Rsteps cp_L hh_a (hh_x 0) hh_t 0 m)
    as (m' & R1 & _ & R2 & _); [apply hh_args; lia|reflexivity|].
  apply H in R1; [|apply R_field|apply R_ordered|apply R_eqb|apply R_sqrt_ok|apply hh_args; lia|reflexivity].
  destruct R2 as (R2 & R3 & _). { intros k Hk. change (vlen (hh_x 0)) with 0 in Hk. lia. }
  change (vlen (hh_x 0) + 1) with 1 in R1. rewrite R2, R3 in R1.
  assert (Em : elt m hh_a 0 0 = 2%R) by reflexivity. rewrite Em in R1.
  destruct R1 as [R1|R1].
  - specialize (R1 (fun _ => 1%R) (fun _ => 1%R)). cbv -[Rplus Rmult Rminus IZR] in R1. lra.
  - cbv -[Rplus Rmult Rminus IZR] in R1. lra.
Qed.
Print Assumptions C76_house_unscaled_refuted.

(* ---- C77: applying a reflector ---- *)

(* ( a1 ; A2 ) := H * ( a1 ; A2 ) from the left, ( a1 A2 ) := ( a1 A2 ) * H from the right *)
Theorem C77_houseapply2x1 : forall T (K : num T), is_field K -> eqb_ok K ->
  forall (E : lenv) L a1 A2 tau v w flags m,
  let left := has flags ARMAS_LEFT in let n := vlen a1 in
  2 <= e_b2 E -> n < Z.of_nat (e_fuel E) -> rows A2 < Z.of_nat (e_fuel E) ->
  vok L v -> vok L a1 -> mok L A2 -> mok L (wvec n w) -> mok L tau -> 1 <= rows tau -> 1 <= cols tau ->
  n <= rows w * cols w ->
  disjoint (wvec n w) v -> disjoint (wvec n w) a1 -> disjoint (wvec n w) A2 ->
  disjoint a1 A2 -> disjoint a1 v -> disjoint A2 v ->
  (if left then cols A2 else rows A2) = n -> (if left then rows A2 else cols A2) = vlen v ->
  exists m', armas_houseapply2x1 K E a1 A2 (Some tau) v w flags L m = Some (0, m') /\
    (forall i j, 0 <= i < vlen v + 1 -> 0 <= j < n ->
       vcons (velt m' a1 j) (fun i => if left then elt m' A2 i j else elt m' A2 j i) i =
       reflect K (vlen v + 1) (elt m tau 0 0) (vcons (one K) (velt m v))
         (vcons (velt m a1 j) (fun i => if left then elt m A2 i j else elt m A2 j i)) i) /\
    (forall a, ~ cell (wvec n w) a -> ~ cell a1 a -> ~ cell A2 a -> m' a = m a).
Proof. intros T K HF HE. exact (houseapply2x1_ok K HF HE). Qed.
Print Assumptions C77_houseapply2x1.

(* a square matrix: A := H*A or A := A*H *)
Theorem C77_houseapply_square_partial : forall T (K : num T), is_field K -> eqb_ok K ->
  forall (E : lenv) L A tau v w flags m,
  let left := has flags ARMAS_LEFT in let n := rows A in
  2 <= e_b2 E -> n < Z.of_nat (e_fuel E) -> cols A = n -> 2 <= n ->
  mok L A -> vok L v -> vlen v = n - 1 -> mok L (wvec n w) -> n <= rows w * cols w ->
  mok L tau -> 1 <= rows tau -> 1 <= cols tau ->
  disjoint (wvec n w) v -> disjoint (wvec n w) A -> disjoint A v ->
  has flags ARMAS_UNIT = true -> has flags ARMAS_RIGHT = negb left ->
  exists m', armas_houseapply K E A (Some tau) v (Some w) flags L m = Some (0, m') /\
    (forall i j, pos A i j -> elt m' A i j =
       if left then reflect K n (elt m tau 0 0) (vcons (one K) (velt m v)) (fun k => elt m A k j) i
       else reflect K n (elt m tau 0 0) (vcons (one K) (velt m v)) (fun k => elt m A i k) j) /\
    (forall a, ~ cell (wvec n w) a -> ~ cell A a -> m' a = m a).
Proof. intros T K HF HE. exact (houseapply_square K HF HE). Qed.
Print Assumptions C77_houseapply_square_partial.

(* a vector *)
Theorem C77_houseapply_vector_partial : forall T (K : num T), is_field K ->
  forall (E : lenv) L A tau v w flags m,
  0 <= e_b1 E -> vlen A < Z.of_nat (e_fuel E) -> vok L A -> 1 <= vlen A -> vok L v ->
  vlen v = (if has flags ARMAS_UNIT then vlen A - 1 else vlen A) ->
  mok L tau -> 1 <= rows tau -> 1 <= cols tau -> disjoint A v ->
  exists m', armas_houseapply K E A (Some tau) v w flags L m = Some (0, m') /\
    (forall k, 0 <= k < vlen A -> velt m' A k =
       if has flags ARMAS_UNIT then reflect K (vlen A) (elt m tau 0 0) (vcons (one K) (velt m v)) (velt m A) k
       else reflect K (vlen A) (add K (one K) (one K)) (velt m v) (velt m A) k) /\
    (forall a, ~ cell A a -> m' a = m a).
Proof. intros T K HF. exact (houseapply_vector K HF). Qed.
Print Assumptions C77_houseapply_vector_partial.

(* the size check compares v with the wrong side of A: a reflector of the right order for a
   matrix that is not square is rejected, whatever the operands hold *)
Theorem C77_houseapply_size_refuted : forall T (K : num T) (E : lenv) L A tau v w flags m,
  armas_isvector A = false -> rows A <> cols A -> has flags ARMAS_RIGHT = negb (has flags ARMAS_LEFT) -> has flags ARMAS_UNIT = true ->
  armas_size v = (if has flags ARMAS_LEFT then rows A else cols A) - 1 ->
  armas_houseapply K E A (Some tau) v w flags L m = Some (-1, m).
Proof.
  intros T K E L A tau v w flags m HV Hne HRt Hu Hv. unfold armas_houseapply. cbv zeta. rewrite HV, Hu, HRt, Hv. cbn [orb].
  destruct (has flags ARMAS_LEFT); cbn [negb].
  - replace (cols A - 1 =? rows A - 1) with false by lia. reflexivity.
  - replace (rows A - 1 =? cols A - 1) with false by lia. reflexivity.
Qed.
Print Assumptions C77_houseapply_size_refuted.

(* a null tau, documented as the mark of a reflector I - 2*v*v^T, never works: v of full length is rejected *)
Theorem C77_houseapply_null_refuted : forall T (K : num T) (E : lenv) L A v w flags m,
  rows A = cols A \/ armas_isvector A = true ->
  armas_size v = (if armas_isvector A then armas_size A else rows A) ->
  armas_houseapply K E A None v w flags L m = Some (-1, m).
Proof.
  intros T K E L A v w flags m Hsq Hv. unfold armas_houseapply. cbv zeta. cbn [orb]. rewrite Hv. destruct (armas_isvector A).
  - cbn [Z.eqb negb]. replace (armas_size A - 1 =? armas_size A) with false by lia. reflexivity.
  - destruct Hsq as [Hsq|Hsq]; [|discriminate]. rewrite Hsq. replace (cols A - 1 =? cols A) with false by lia. destruct (has flags ARMAS_RIGHT); reflexivity.
Qed.
Print Assumptions C77_houseapply_null_refuted.

(* without ARMAS_UNIT a matrix gets I - tau*v*v^T, not the I - 2*v*v^T that armas_house computed *)
Theorem C77_houseapply_unscaled_refuted : exists (A tau v w : view) (m m' : Z -> Z),
  wf A /\ rows A = 2 /\ cols A = 2 /\ armas_size v = 2 /\ armas_size w = 2 /\
  armas_houseapply Znum (lu_E 64) A (Some tau) v (Some w) ARMAS_LEFT cp_L m = Some (0, m') /\
  inner Znum 2 (velt m v) (velt m v) = 1 /\
  elt m' A 0 0 <> reflect Znum 2 2 (velt m v) (fun k => elt m A k 0) 0.
Proof.
  exists (mkview 200 7 2 2), (mkview 300 7 1 1), (mkview 400 7 2 1), (mkview 500 7 2 1), (fun a => if (a =? 200) || (a =? 208) || (a =? 300) || (a =? 400) then 1 else 0).
  match goal with |- exists m', _ /\ _ /\ _ /\ _ /\ _ /\ ?c = _ /\ _ => destruct c as [(r & m')|] eqn:Ec; [|exfalso; revert Ec; vm_compute; discriminate] end.
  exists m'. assert (Er : r = 0 /\ m' 200 = 0).
  { match type of Ec with ?c = _ => assert (match c with Some (r, m') => r = 0 /\ m' 200 = 0 | None => False end) by (vm_compute; auto) end. rewrite Ec in H. exact H. }
  destruct Er as (-> & Er). repeat split; try reflexivity; try (cbn; lia).
  unfold elt at 1. cbn [elems step]. replace (200 + 0 * 7 + 0) with 200 by lia. rewrite Er. vm_compute. discriminate.
Qed.
Print Assumptions C77_houseapply_unscaled_refuted.

(* the hypotheses are met: a 3x3 matrix over the rationals, both sides *)
Example C77_nonvacuous : forall flags, flags = Z.lor ARMAS_UNIT ARMAS_LEFT \/ flags = Z.lor ARMAS_UNIT ARMAS_RIGHT ->
  exists m', armas_houseapply Rnum (lu_E 64) (lu_A 3 3) (Some (mkview 300 7 1 1)) (mkview 400 7 2 1) (Some (mkview 500 7 3 1)) flags cp_L (fun a => IZR a) = Some (0, m') /\
  elt m' (lu_A 3 3) 0 0 = (if has flags ARMAS_LEFT then 200 - 300 * (200 + 400 * 201 + 401 * 202) else 200 - 300 * (200 + 400 * 207 + 401 * 214))%R.
Proof.
  intros flags Hf.
  assert (OK : forall e r c, 200 <= e -> 0 <= r <= 7 -> 0 <= c <= 7 -> e + 49 <= 2000 -> mok cp_L (mkview e 7 r c)).
  { intros e r c H1 H2 H3 H4. split; [repeat split; cbn; lia|]. intros a (i & j & (P1 & P2) & ->). cbn [rows cols elems step] in *. unfold cp_L. lia. }
  destruct (C77_houseapply_square_partial R Rnum R_field R_eqb (lu_E 64) cp_L (lu_A 3 3) (mkview 300 7 1 1) (mkview 400 7 2 1) (mkview 500 7 3 1) flags (fun a => IZR a))
    as (m' & R1 & R2 & _); try (cbn; lia); try (apply OK; lia).
  - split; [right; reflexivity|apply OK; lia].
  - split; [repeat split; cbn; lia|]. intros a (i & j & (P1 & P2) & ->). unfold wvec, lu_A in *. cbn [rows cols elems step armas_make] in *. unfold cp_L. lia.
  - intros a (i & j & (P1 & P2) & ->) (i' & j' & (Q1 & Q2) & E); unfold wvec, lu_A in *; cbn [rows cols elems step armas_make] in *; lia.
  - intros a (i & j & (P1 & P2) & ->) (i' & j' & (Q1 & Q2) & E); unfold wvec, lu_A in *; cbn [rows cols elems step armas_make] in *; lia.
  - intros a (i & j & (P1 & P2) & ->) (i' & j' & (Q1 & Q2) & E); unfold wvec, lu_A in *; cbn [rows cols elems step armas_make] in *; lia.
  - destruct Hf as [-> | ->]; reflexivity.
  - destruct Hf as [-> | ->]; reflexivity.
  - exists m'. split; [exact R1|]. rewrite R2 by (split; cbn; lia). unfold reflect, inner. destruct Hf as [-> | ->]; cbv -[Rplus Rmult Rminus IZR]; ring.
Qed.
