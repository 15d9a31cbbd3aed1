(* PQrT.v: building the triangular factor of a block reflector. *)
From Coq Require Import ZArith Lia Bool ZifyBool Ring Field.
From Verif Require Import Mem MView SpecView PView PSub Hoare MFlags MBase MCopy PUpd PCopy
  MNum SpecNum MBlas1 PSum PBlas1 MElem PElem MBlas2 PMvec PBlas2 PFrame SpecTrm MTrm PTrm MGemm
  MTrsm PTrsm MTrmm PNorm MLap PLap MHouse SpecHouse SpecQr PHouse MQr PQrA PQrB PQr
  Properties_Blas2 Properties_Trm.
Local Open Scope Z_scope.
Local Open Scope prog_scope.

Ltac lia := nobool; zlia.

Section U.
  Context {T : Type} (K : num T).
  Hypotheses (HF : is_field K) (HE : eqb_ok K).
  Let HR : is_ring K := Field_theory.F_R HF.
  Let HR' : ring_theory (zero K) (one K) (add K) (mul K) (sub K) (opp K) eq := HR.
  Add Ring KringT : HR'.
  Local Notation "a +' b" := (add K a b) (at level 50, left associativity).
  Local Notation "a *' b" := (mul K a b) (at level 40, left associativity).
  Local Notation "0'" := (zero K).
  Local Notation "1'" := (one K).

  Lemma set1_wp : forall L A i j v (m : Z -> T) (Q : unit -> (Z -> T) -> Prop), mok L A -> pos A i j ->
    (forall m', elt m' A i j = v -> (forall i' j', pos A i' j' -> (i', j') <> (i, j) -> elt m' A i' j' = elt m A i' j') ->
       only_changes A m m' -> Q tt m') ->
    wp (armas_set (subm A i j 1 1) 0 0 v) L m Q.
  Proof.
    intros L A i j v m Q (WA & LA) Hp HQ. unfold armas_set. change (armas_size (subm A i j 1 1) =? 0) with false. cbv iota.
    change (0 <? 0) with false. cbv iota.
    replace (elems (subm A i j 1 1) + (0 * step (subm A i j 1 1) + 0)) with (elems A + (j * step A + i)).
    - change (wr (elems A + (j * step A + i)) v) with (armas_set_unsafe (T := T) A i j v). apply set_unsafe_wp; auto.
    - rewrite subm_elems. cbn [step]. unfold armas_submatrix_unsafe, armas_make. cbn [step]. lia.
  Qed.

  (* the inner product of two of the vectors *)
  Lemma hh_inner : forall n a q k, 0 <= q < k -> k < n ->
    inner K n (hvec K a q) (hvec K a k) = a k q +' vsum K (n - k - 1) (fun r => a (k + 1 + r) q *' a (k + 1 + r) k).
  Proof.
    intros n a q k Hq Hk. rewrite (inner_sym K HF). rewrite (inner_embed K HF n k) by (try lia; intros; apply hvec_low; lia).
    unfold inner. assert (X : n - k = 1 + (n - k - 1)) by lia. rewrite X, (vsum_split K HR) by lia. rewrite <- X. f_equal.
    - rewrite (vsum_1 K HR). unfold hvec. replace (k + 0 <? k) with false by lia. replace (k + 0 =? k) with true by lia.
      replace (k + 0 <? q) with false by lia. replace (k + 0 =? q) with false by lia. rewrite Z.add_0_r. ring.
    - apply vsum_ext. intros r Hr. unfold hvec. replace (k + (1 + r) <? k) with false by lia. replace (k + (1 + r) =? k) with false by lia.
      replace (k + (1 + r) <? q) with false by lia. replace (k + (1 + r) =? q) with false by lia. replace (k + (1 + r)) with (k + 1 + r) by lia. ring.
  Qed.

  (* column p of T was left alone, or is the one of the triangular factor *)
  Definition T_col (n : Z) (y : Z -> Z -> T) (t : Z -> T) (T0 T1 : Z -> Z -> T) (p : Z) : Prop :=
    (t p = 0' /\ forall q, 0 <= q <= p -> T1 q p = T0 q p) \/
    (t p <> 0' /\ T1 p p = t p /\ forall q, 0 <= q < p -> T1 q p = opp K (t p) *' vsum K p (fun r => upper K T1 q r *' inner K n (y r) (y p))).

  Lemma upper_tri : forall (m : Z -> T) V q p, upper K (elt m V) q p = tri K true false m V q p.
  Proof.
    intros m V q p. unfold upper, tri. destruct (q =? p) eqn:E1; [replace (p <? q) with false by lia; reflexivity|].
    destruct (q <? p) eqn:E2; [replace (p <? q) with false by lia|replace (p <? q) with true by lia]; reflexivity.
  Qed.

  Lemma refl_wp : forall (E : lenv) L Tv A tau (m : Z -> T) (Q : Z -> (Z -> T) -> Prop),
    0 <= e_b1 E -> 2 <= e_b2 E -> rows A < Z.of_nat (e_fuel E) -> cols A < Z.of_nat (e_fuel E) ->
    mok L A -> mok L tau -> mok L Tv -> cols tau = 1 -> cols A <= rows tau -> cols A <= rows A ->
    cols A <= rows Tv -> cols A <= cols Tv -> disjoint Tv A -> disjoint Tv tau ->
    (cols A = rows A -> 0 < cols A -> elt m tau (cols A - 1) 0 = 0') ->
    (forall m', (forall p, 0 <= p < cols A -> T_col (rows A) (hvec K (elt m A)) (fun q => elt m tau q 0) (elt m Tv) (elt m' Tv) p) ->
       (forall q p, pos Tv q p -> p < q \/ cols A <= p -> elt m' Tv q p = elt m Tv q p) -> only_changes Tv m m' -> Q 0 m') ->
    wp (armas_unblk_qr_reflector K E Tv A tau) L m Q.
  Proof.
    intros E L Tv A tau m Q Hb1 Hb2 HfM HfN OA OT OV Ct Rt HMN RT CT DA Dt Hlast HQ.
    set (M := rows A) in *. set (N := cols A) in *.
    assert (WA : wf A) by apply OA. assert (WT : wf tau) by apply OT. assert (WV : wf Tv) by apply OV.
    assert (HN : 0 <= N) by (destruct WA as (X1 & X2 & X3); exact X2).
    set (y := hvec K (elt m A)). set (t := fun q => elt m tau q 0).
    unfold armas_unblk_qr_reflector. wbind. rewrite part_at.
    apply (wp_down L A 1 more (N - 1) _
       (fun k s m' => s = (subm Tv 0 0 k k, subm tau 0 0 k 1) /\ k <= N /\
          (forall p, 0 <= p < k -> T_col M y t (elt m Tv) (elt m' Tv) p) /\
          (forall q p, pos Tv q p -> p < q \/ k <= p -> elt m' Tv q p = elt m Tv q p) /\ only_changes Tv m m') (e_fuel E) 0); try (fold M; fold N; lia).
    - intros q Hq. rewrite more_iff by exact Hq. fold M N. lia.
    - split; [|split; [lia|split; [intros; lia|split; [auto|intros a _; reflexivity]]]].
      unfold mat_partition_2x2, mat_partition_2x1. cbn [ATL fst].
      destruct WV as (v1 & v2 & v3). replace (0 >? rows tau) with false by lia. cbn [fst]. rewrite Ct. 
      replace (0 >? rows Tv) with false by lia. replace (0 >? cols Tv) with false by lia. reflexivity.
    - intros k s m1 Hk (Es & _ & IT & IL & IO). cbv zeta. fold M; fold N.
      replace (Z.min 1 (Z.min (M - k) (N - k))) with 1 by lia. subst s.
      rewrite repart_at by lia. replace (Z.min 1 (Z.min (rows Tv - k) (cols Tv - k))) with 1 by lia.
      unfold b3at. cbn [A00 A01 A11 A10 A20 A21]. fold M; fold N.
      unfold mat_repartition_2x1to3x1. cbn [rows armas_submatrix_unsafe armas_make]. rewrite Ct.
      replace (1 + k >? rows tau) with false by lia.
      assert (it : inA tau k 0 1 1) by (repeat split; lia).
      assert (kA : forall i j, pos A i j -> elt m1 A i j = elt m A i j) by (intros i j Hp; apply (elt_keep m m1 A Tv); auto).
      assert (kt : forall q, 0 <= q < rows tau -> elt m1 tau q 0 = t q) by (intros q Hq; apply (elt_keep m m1 tau Tv); auto; split; lia).
      wbind. apply (get_blk_wp K E L tau); auto. rewrite kt by lia.
      assert (Hend : forall m2, T_col M y t (elt m Tv) (elt m2 Tv) k -> (forall q p, pos Tv q p -> ~ (p = k /\ q <= k) -> elt m2 Tv q p = elt m1 Tv q p) ->
        only_changes Tv m1 m2 ->
        (ATL (mat_continue_3x3to2x2 (subm Tv 0 0 k k) (subm Tv k k 1 1) Tv PBottom), fst (mat_continue_3x1to2x1 (subm tau 0 0 k 1) (subm tau k 0 1 1) tau PBottom)) =
          (subm Tv 0 0 (k + 1) (k + 1), subm tau 0 0 (k + 1) 1) /\ k + 1 <= N /\
          (forall p, 0 <= p < k + 1 -> T_col M y t (elt m Tv) (elt m2 Tv) p) /\
          (forall q p, pos Tv q p -> p < q \/ k + 1 <= p -> elt m2 Tv q p = elt m Tv q p) /\ only_changes Tv m m2).
      { intros m2 Hc Hk2 Ho. split; [|split; [lia|split; [|split]]].
        - f_equal. unfold mat_continue_3x1to2x1. cbn [fst rows armas_submatrix_unsafe armas_make]. rewrite Ct. reflexivity.
        - intros p Hp. destruct (Z.eq_dec p k) as [->|Hne]; auto. specialize (IT p ltac:(lia)).
          assert (Eq : forall q r, 0 <= q < N -> 0 <= r < k -> elt m2 Tv q r = elt m1 Tv q r) by (intros q r Hq Hr; apply Hk2; [split; lia|lia]).
          destruct IT as [(I1 & I2)|(I1 & I2 & I3)]; [left|right].
          + split; auto. intros q Hq. rewrite Eq by lia. auto.
          + split; auto. split; [rewrite Eq by lia; auto|]. intros q Hq. rewrite Eq, I3 by lia. f_equal. apply vsum_ext. intros r Hr. f_equal.
            unfold upper. destruct (r <? q); auto. symmetry. apply Eq; lia.
        - intros q p Hp Hq. rewrite Hk2 by (auto; lia). apply IL; auto. lia.
        - intros a Ha. rewrite Ho, IO; auto. }
      destruct (eqb K (t k) 0') eqn:Et.
      + apply HE in Et. cbn [negb when]. wbind. apply wp_ret. apply wp_ret. apply Hend; auto.
        * left. split; auto. intros q Hq. apply IL; [split; lia|lia].
        * intros a _. reflexivity.
      + apply (eqb_iff K HE) in Et. cbn [negb when].
        assert (HkM : k < M - 1).
        { destruct (Z_lt_ge_dec k (M - 1)) as [X|X]; auto. exfalso. apply Et. unfold t. replace k with (N - 1) by lia. apply Hlast; lia. }
        set (t01 := subm Tv 0 k k 1). set (a10 := subm A k 0 1 k). set (A20 := subm A (k + 1) 0 (M - k - 1) k). set (a21 := subm A (k + 1) k (M - k - 1) 1).
        set (T00 := subm Tv 0 0 k k).
        assert (it01 : inA Tv 0 k k 1) by (repeat split; lia). assert (iT00 : inA Tv 0 0 k k) by (repeat split; lia).
        assert (ia10 : inA A k 0 1 k) by (repeat split; fold M; fold N; lia). assert (iA20 : inA A (k + 1) 0 (M - k - 1) k) by (repeat split; fold M; fold N; lia).
        assert (ia21 : inA A (k + 1) k (M - k - 1) 1) by (repeat split; fold M; fold N; lia).
        assert (Vt : vok L t01) by (split; [right; reflexivity|]; apply (V_ok L Tv OV); auto).
        assert (Va : vok L a10) by (split; [left; reflexivity|]; apply (V_ok L A OA); auto).
        assert (Vb : vok L a21) by (split; [right; reflexivity|]; apply (V_ok L A OA); auto).
        assert (VA : mok L A20) by (apply (V_ok L A OA); auto). assert (VT : mok L T00) by (apply (V_ok L Tv OV); auto).
        assert (tT : forall a, cell t01 a -> cell Tv a) by (intros a; apply (V_in L Tv OV); auto).
        assert (lt : vlen t01 = k) by apply (col_len Tv). assert (la : vlen a10 = k) by apply (row_len A). assert (lb : vlen a21 = M - k - 1) by apply (col_len A).
        assert (Dta : disjoint t01 a10) by (intros a X1 X2; apply (DA a); auto; apply (V_in L A OA) in X2; auto).
        assert (DtA : disjoint t01 A20) by (intros a X1 X2; apply (DA a); auto; apply (V_in L A OA) in X2; auto).
        assert (Dtb : disjoint t01 a21) by (intros a X1 X2; apply (DA a); auto; apply (V_in L A OA) in X2; auto).
        assert (DtT : disjoint t01 T00) by (apply (V_disj L Tv OV); auto; lia).
        wbind. wbind. apply set1_wp; auto; [split; lia|]. intros m2 S1 S2 S3.
        assert (kA2 : forall i j, pos A i j -> elt m2 A i j = elt m A i j) by (intros i j Hp; rewrite (elt_keep m1 m2 A Tv); auto).
        wbind. apply (axpby_wp K HF); auto; [rewrite lt, la; reflexivity|]. rewrite lt. intros m3 X1 X2.
        assert (t01A : forall (ma mb : Z -> T) i j, only_changes t01 ma mb -> pos A i j -> elt mb A i j = elt ma A i j).
        { intros ma mb i j Ho Hp. unfold elt. apply Ho. intros Hc. apply (DA _ (tT _ Hc)). exists i, j. auto. }
        assert (t01T : forall (ma mb : Z -> T) q p, only_changes t01 ma mb -> pos Tv q p -> ~ (p = k /\ q < k) -> elt mb Tv q p = elt ma Tv q p).
        { intros ma mb q p Ho Hp Hn. unfold elt. apply Ho. apply subm_notin; auto. unfold inb. lia. }
        assert (G3 : forall q, 0 <= q < k -> velt m3 t01 q = elt m A k q).
        { intros q Hq. rewrite X1 by auto. unfold a10. rewrite (row_velt A) by lia. rewrite kA2 by (split; fold M; fold N; lia). ring_simplify. f_equal; lia. }
        wbind.
        assert (W4 : wp (l_mvmult K E (opp K (t k)) t01 (opp K (t k)) A20 a21 ARMAS_TRANSA) L m3 (fun r m4 =>
          (forall q, 0 <= q < k -> velt m4 t01 q = opp K (t k) *' inner K M (y q) (y k)) /\ only_changes t01 m3 m4)).
        { unfold l_mvmult. destruct (Z.eq_dec k 0) as [Zk|Zk].
          - exists 0, m3. split; [|split; [intros; exfalso; lia|intros a _; reflexivity]].
            unfold armas_mvmult, armas_size, A20. cbn [rows cols armas_submatrix_unsafe armas_make]. rewrite Zk, Z.mul_0_r. reflexivity.
          - destruct Vt as (v1 & v2 & v3), Vb as (v4 & v5 & v6), VA as (v7 & v8).
            destruct (C19_mvmult T K HR HE (e_fuel E) (e_b2 E) (e_opt E) L m3 (opp K (t k)) t01 (opp K (t k)) A20 a21 ARMAS_TRANSA)
              as (m4 & Y1 & Y2 & Y3); auto; try (rewrite ?lt, ?lb; cbn; lia).
            exists 0, m4. split; [exact Y1|]. split; auto. intros q Hq. rewrite Y2 by (rewrite lt; auto). rewrite lb, G3 by auto.
            unfold y. rewrite hh_inner by lia. change (has ARMAS_TRANSA ARMAS_TRANS) with true. cbv iota.
            rewrite (vsum_ext K (M - k - 1) (fun j => elt m3 A20 j q *' velt m3 a21 j) (fun r => elt m A (k + 1 + r) q *' elt m A (k + 1 + r) k)); [ring|].
            intros r Hr. unfold A20, a21. rewrite V_elt, (col_velt A) by lia. rewrite !(t01A m2 m3), !kA2 by (auto; split; fold M; fold N; lia). f_equal. }
        eapply wp_conseq; [exact W4|]. cbv beta. intros r4 m4 (G4 & O4). wbind.
        destruct Vt as (v1 & v2 & v3), VT as (v7 & v8).
        destruct (C22_mvmult_trm T K HR HE (e_fuel E) (e_b1 E) (e_b2 E) (e_opt E) L m4 t01 1' T00 ARMAS_UPPER)
          as (m5 & Y1 & Y2 & Y3); auto; try (rewrite ?lt; cbn; lia).
        exists 0, m5. split; [exact Y1|]. apply wp_ret. apply wp_ret.
        change (has ARMAS_UPPER ARMAS_UPPER) with true in Y2. change (has ARMAS_UPPER ARMAS_UNIT) with false in Y2.
        change (has ARMAS_UPPER ARMAS_TRANS) with false in Y2. cbn [andb] in Y2. unfold optri in Y2. rewrite lt in Y2.
        assert (G5 : forall q p, pos Tv q p -> ~ (p = k /\ q <= k) -> elt m5 Tv q p = elt m1 Tv q p).
        { intros q p Hp Hn. rewrite (t01T m4 m5), (t01T m3 m4), (t01T m2 m3), S2; auto; try lia. intros Heq. apply Hn. inversion Heq. lia. }
        apply Hend; auto.
        * right. split; auto. split.
          -- rewrite (t01T m4 m5), (t01T m3 m4), (t01T m2 m3), S1; auto; try (split; lia); lia.
          -- intros q Hq. transitivity (velt m5 t01 q); [unfold t01; rewrite (col_velt Tv) by lia; f_equal; lia|].
             rewrite Y2 by auto. rewrite <- (vsum_mul_l K HR). rewrite <- (vsum_mul_l K HR). apply vsum_ext. intros r Hr. rewrite G4 by auto.
             replace (tri K true false m4 T00 q r) with (upper K (elt m5 Tv) q r).
             ++ ring.
             ++ rewrite <- upper_tri. unfold upper, T00. destruct (r <? q); auto. rewrite V_elt. rewrite (t01T m4 m5) by (auto; try (split; lia); lia). f_equal; lia.
        * intros a Ha. rewrite Y3, O4, X2, S3; auto.
    - intros k s m1 Hk1 Hk2 (_ & Hk3 & IT & IL & IO). apply wp_ret. fold M in Hk2; fold N in Hk2. assert (k = N) as -> by lia. apply HQ; auto.
  Qed.

  (* with the columns for t = 0 empty beforehand this is the triangular factor *)
  Lemma T_cols_T : forall n N y t T0 T1, (forall p, 0 <= p < N -> T_col n y t T0 T1 p) ->
    (forall q p, 0 <= q <= p -> p < N -> t p = 0' -> T0 q p = 0') -> is_T K n N y t (upper K T1).
  Proof.
    intros n N y t T0 T1 H Hz p Hp. assert (Hd : forall q, q <= p -> upper K T1 q p = T1 q p) by (intros q Hq; unfold upper; replace (p <? q) with false by lia; reflexivity).
    assert (Hl : forall q, p < q < N -> upper K T1 q p = 0') by (intros q Hq; unfold upper; replace (p <? q) with true by lia; reflexivity).
    destruct (H p Hp) as [(H1 & H2)|(H1 & H2 & H3)].
    - split; [rewrite Hd, H2, Hz, H1 by (auto; lia); reflexivity|]. split; auto. intros q Hq. rewrite Hd, H2, Hz, H1 by (auto; lia). ring.
    - split; [rewrite Hd by lia; auto|]. split; auto. intros q Hq. rewrite Hd by lia. auto.
  Qed.

  (* what was in those columns does not matter when the vectors for t = 0 are (1, 0, 0, ...) and z is zero in these places *)
  Lemma T_cols_q : forall n N a t T0 T1 z i, (forall p, 0 <= p < N -> T_col n (hvec K a) t T0 T1 p) -> 0 <= N <= n ->
    (forall q i, 0 <= q < N -> q < i < n -> t q = 0' -> a i q = 0') -> (forall q, 0 <= q < N -> t q = 0' -> z q = 0') -> 0 <= i < n ->
    qapply K n a t (Z.to_nat N) z i = bapply K n N (hvec K a) (upper K T1) z i.
  Proof.
    intros n N a t T0 T1 z i H HN Ha Hz Hi. set (T2 := fun q p => if eqb K (t p) 0' then 0' else T1 q p).
    assert (Hin : forall q w, 0 <= q < N -> t q = 0' -> inner K n (hvec K a q) w = w q).
    { intros q w Hq Ht. unfold inner. rewrite (vsum_one K HR n q).
      - unfold hvec. rewrite Z.ltb_irrefl, Z.eqb_refl. ring.
      - lia.
      - intros r Hr Hne. unfold hvec. destruct (r <? q) eqn:E1; [ring|]. replace (r =? q) with false by lia. rewrite Ha by (auto; lia). ring. }
    assert (E2 : forall q p, upper K T2 q p = if eqb K (t p) 0' then 0' else upper K T1 q p).
    { intros q p. unfold upper, T2. destruct (p <? q), (eqb K (t p) 0'); reflexivity. }
    rewrite (T_q K HF n a t (Z.to_nat N) (upper K T2)); auto; rewrite Z2Nat.id by lia.
    - unfold bapply. f_equal. apply vsum_ext. intros q Hq. f_equal. apply vsum_ext. intros p Hp. rewrite E2. destruct (eqb K (t p) 0') eqn:E; auto.
      apply HE in E. rewrite Hin, Hz by auto. ring.
    - apply (T_cols_T n N _ t (fun _ _ => 0') T2); auto. intros p Hp. destruct (H p Hp) as [(H1 & H2)|(H1 & H2 & H3)].
      + left. split; auto. intros q Hq. unfold T2. rewrite (proj2 (HE _ _)) by auto. reflexivity.
      + right. split; auto. assert (Et : eqb K (t p) 0' = false) by (apply (eqb_iff K HE); auto). unfold T2 at 1 2. rewrite Et. split; auto.
        intros q Hq. rewrite H3 by auto. f_equal. apply vsum_ext. intros r Hr. rewrite E2. destruct (eqb K (t r) 0') eqn:E; auto.
        apply HE in E. rewrite Hin by (auto; lia). unfold hvec. replace (r <? p) with true by lia. ring.
  Qed.
End U.
