(* PLuPiv.v: lemmas on the model of the LU factorization with row pivoting. *)
From Coq Require Import ZArith Lia Bool ZifyBool Ring.
From Verif Require Import Mem MView SpecView PView PSub Hoare MFlags MBase MCopy PUpd PCopy
  MNum SpecNum MBlas1 PSum PBlas1 PNorm MElem PElem SpecPivot MPivot PPivot MBlas2 PMvec PBlas2
  PFrame SpecTrm MTrm PTrm MGemm PGemm PMatcpy PMult MTrsm PTrsm MLap MLu PLap PLu Properties_Pivot.
Local Open Scope Z_scope.
Local Open Scope prog_scope.

Ltac lia := nobool; zlia.
Notation subm := armas_submatrix_unsafe.

(* ---- interchanges ---- *)
Lemma fwd_ext : forall size p p' n i, (forall q, 0 <= q < Z.of_nat n -> p q = p' q) -> fwd size p n i = fwd size p' n i.
Proof.
  intros size p p' n. induction n as [|n IH]; intros i H; cbn [fwd]; auto.
  rewrite H by lia. apply IH. intros q Hq. apply H. lia.
Qed.

Lemma fwd_range : forall size p n i, Z.of_nat n <= size -> 0 <= i < size -> 0 <= fwd size p n i < size.
Proof.
  intros size p n. induction n as [|n IH]; intros i Hn Hi; cbn [fwd]; auto. apply IH; [lia|]. apply ichg_range; lia.
Qed.

(* the interchanges k, k+1, ..., k+n-1 move only the rows from k on *)
Lemma fwd_shift : forall size p k n i, 0 <= k -> k + Z.of_nat n <= size -> (forall q, 0 <= q < Z.of_nat n -> q < p (k + q) - k <= size - k) -> 0 <= i < size ->
  fwd size p (Z.to_nat k + n) i =
  fwd size p (Z.to_nat k) (if i <? k then i else k + fwd (size - k) (fun q => p (k + q) - k) n (i - k)).
Proof.
  intros size p k n. induction n as [|n IH]; intros i Hk Hn Hp Hi.
  - rewrite Nat.add_0_r. cbn [fwd]. destruct (i <? k) eqn:E; [reflexivity|]. f_equal. lia.
  - rewrite Nat.add_succ_r. cbn [fwd].
    replace (Z.of_nat (Z.to_nat k + n)) with (k + Z.of_nat n) by lia. assert (Hpn := Hp (Z.of_nat n) ltac:(lia)).
    set (t := p (k + Z.of_nat n)) in *. assert (Ht : k + Z.of_nat n < t <= size) by (unfold t; Lia.lia). clearbody t.
    rewrite IH; [|lia|lia|intros; apply Hp; lia|apply ichg_range; lia].
    f_equal. unfold ichg. replace ((0 <? t) && (t <=? size)) with true by zlia.
    replace ((0 <? t - k) && (t - k <=? size - k)) with true by zlia.
    unfold transp. destruct (i <? k) eqn:E.
    + replace (i =? t - 1) with false by zlia. replace (i =? k + Z.of_nat n) with false by zlia. rewrite E. reflexivity.
    + replace (i - k =? t - k - 1) with (i =? t - 1) by zlia. replace (i - k =? Z.of_nat n) with (i =? k + Z.of_nat n) by zlia.
      destruct (i =? t - 1) eqn:E1; [|destruct (i =? k + Z.of_nat n) eqn:E2].
      * replace (k + Z.of_nat n <? k) with false by zlia. do 2 f_equal. zlia.
      * replace (t - 1 <? k) with false by zlia. do 2 f_equal. zlia.
      * rewrite E. reflexivity.
Qed.

Section P.
  Context {T : Type} (K : num T).
  Hypotheses (HF : is_field K) (HE : eqb_ok K) (HO : is_ordered K).
  Let HR : is_ring K := Field_theory.F_R HF.
  Let HR' : ring_theory (zero K) (one K) (add K) (mul K) (sub K) (opp K) eq := HR.
  Add Ring KringP : HR'.
  Local Notation "a +' b" := (add K a b) (at level 50, left associativity).
  Local Notation "a -' b" := (sub K a b) (at level 50, left associativity).
  Local Notation "a *' b" := (mul K a b) (at level 40, left associativity).
  Local Notation "a << b" := (ltb K a b) (at level 70).

  (* ---- the absolute value ---- *)
  Lemma ordered_ltb_ok : ltb_ok K.
  Proof.
    split; [apply (o_irr K HO)|]. split; [apply (o_trans K HO)|apply (o_tot K HO)].
  Qed.

  Lemma abs_opp : forall a, abs K (opp K a) = abs K a.
  Proof.
    intros a. rewrite !(o_abs K HO). destruct (o_tot K HO (zero K) a) as [H|[H|H]].
    - assert (Y : opp K a << zero K = true).
      { apply (o_add K HO _ _ (opp K a)) in H. replace (zero K +' opp K a) with (opp K a) in H by ring. replace (a +' opp K a) with (zero K) in H by ring. exact H. }
      rewrite Y, (o_nlt K HO _ _ H). ring.
    - rewrite <- H. replace (opp K (zero K)) with (zero K) by ring. rewrite (o_irr K HO). reflexivity.
    - rewrite H, (o_nlt K HO _ _ (o_opp K HF HO _ H)). reflexivity.
  Qed.

  Lemma abs_mul : forall a b, abs K (a *' b) = abs K a *' abs K b.
  Proof.
    assert (B : forall a b, a << zero K = false -> b << zero K = false -> abs K (a *' b) = abs K a *' abs K b).
    { intros a b Ha Hb. rewrite !(abs_of_nn K HO); auto. apply (o_mul_nn K HF HO); auto. }
    intros a b. destruct (a << zero K) eqn:Ea, (b << zero K) eqn:Eb; auto.
    - rewrite <- (abs_opp a), <- (abs_opp b). rewrite <- B by (apply (o_nlt K HO), (o_opp K HF HO); auto). f_equal. ring.
    - rewrite <- (abs_opp a), <- (abs_opp (a *' b)). rewrite <- B by (auto; apply (o_nlt K HO), (o_opp K HF HO); auto). f_equal. ring.
    - rewrite <- (abs_opp b), <- (abs_opp (a *' b)). rewrite <- B by (auto; apply (o_nlt K HO), (o_opp K HF HO); auto). f_equal. ring.
  Qed.

  Lemma lt_mul_pos : forall a b c, zero K << c = true -> a << b = true -> a *' c << b *' c = true.
  Proof.
    intros a b c Hc H. assert (X : zero K << (b -' a) *' c = true).
    { apply (o_mul K HO); auto. apply (o_add K HO _ _ (opp K a)) in H. replace (a +' opp K a) with (zero K) in H by ring.
      replace (b +' opp K a) with (b -' a) in H by ring. exact H. }
    apply (o_add K HO _ _ (a *' c)) in X. replace (zero K +' a *' c) with (a *' c) in X by ring.
    replace ((b -' a) *' c +' a *' c) with (b *' c) in X by ring. exact X.
  Qed.

  (* a multiplier of partial pivoting is at most one *)
  Lemma quot_le : forall y d, d <> zero K -> abs K d << abs K y = false -> one K << abs K (y *' div K (one K) d) = false.
  Proof.
    intros y d Hd H. destruct (one K << abs K (y *' div K (one K) d)) eqn:E; auto. exfalso.
    apply (lt_mul_pos _ _ (abs K d)) in E; [|apply (abs_pos K HF HO); auto].
    rewrite <- abs_mul in E. replace (one K *' abs K d) with (abs K d) in E by ring.
    replace (y *' div K (one K) d *' d) with ((y *' d) *' div K (one K) d) in E by ring. rewrite (mul_inv K HF) in E by auto. congruence.
  Qed.

  Lemma abs_le_zero : forall y, abs K (zero K) << abs K y = false -> y = zero K.
  Proof.
    intros y H. destruct (eqb K y (zero K)) eqn:E; [apply HE; auto|]. exfalso.
    assert (y <> zero K) by (intros Hy; apply HE in Hy; congruence).
    rewrite (abs_of_nn K HO (zero K)) in H by apply (o_irr K HO). rewrite (abs_pos K HF HO) in H by auto. discriminate.
  Qed.

  (* ---- the factors held in an array ---- *)
  Definition lo (a : Z -> Z -> T) (i q : Z) : T := if i =? q then one K else if q <? i then a i q else zero K.
  Definition up (a : Z -> Z -> T) (q j : Z) : T := if q =? j then a q j else if q <? j then a q j else zero K.

  (* the first k columns of a hold the factors of the rows of o interchanged by p; the other columns are given by rest *)
  Definition lufact (r c k : Z) (o a : Z -> Z -> T) (p : Z -> Z) : Prop :=
    (forall q, 0 <= q < k -> q < p q <= r) /\
    (forall i j, 0 <= i < r -> 0 <= j < c -> o (fwd r p (Z.to_nat k) i) j = vsum K k (fun q => lo a i q *' up a q j)) /\
    (forall i q, 0 <= q < k -> q < i < r -> one K << abs K (a i q) = false).

  Definition errs (k : Z) (a : Z -> Z -> T) (ce0 ce err : Z) : Prop :=
    ((forall q, 0 <= q < k -> a q q <> zero K) -> ce = ce0) /\
    ((exists q, 0 <= q < k /\ a q q = zero K) -> ce = ARMAS_ESINGULAR) /\
    (k = 0 -> err = 0) /\ (0 < k -> err = if eqb K (a (k - 1) (k - 1)) (zero K) then -1 else 0).

  Lemma lo_low : forall a i q, q < i -> lo a i q = a i q.
  Proof. intros a i q H. unfold lo. replace (i =? q) with false by zlia. replace (q <? i) with true by zlia. reflexivity. Qed.
  Lemma lo_diag : forall a i, lo a i i = one K.
  Proof. intros a i. unfold lo. rewrite Z.eqb_refl. reflexivity. Qed.
  Lemma lo_zero : forall a i q, i < q -> lo a i q = zero K.
  Proof. intros a i q H. unfold lo. replace (i =? q) with false by zlia. replace (q <? i) with false by zlia. reflexivity. Qed.
  Lemma up_up : forall a q j, q <= j -> up a q j = a q j.
  Proof. intros a q j H. unfold up. destruct (q =? j) eqn:E; [reflexivity|]. replace (q <? j) with true by zlia. reflexivity. Qed.
  Lemma up_zero : forall a q j, j < q -> up a q j = zero K.
  Proof. intros a q j H. unfold up. replace (q =? j) with false by zlia. replace (q <? j) with false by zlia. reflexivity. Qed.

  (* one more block of columns *)
  Lemma lift : forall r k n (o a a' x y : Z -> Z -> T) p p', 0 <= k -> 0 < n -> k + n <= r ->
    lufact r k k o a p ->
    (forall i j, 0 <= i < k -> k <= j < k + n -> vsum K i (fun q => a i q *' x q j) +' x i j = o (fwd r p (Z.to_nat k) i) j) ->
    (forall i j, k <= i < r -> k <= j < k + n -> y i j = o (fwd r p (Z.to_nat k) i) j -' vsum K k (fun q => a i q *' x q j)) ->
    lufact (r - k) n n (fun i j => y (k + i) (k + j)) (fun i j => a' (k + i) (k + j)) (fun q => p' (k + q) - k) ->
    (forall i j, 0 <= i < k -> 0 <= j < k -> a' i j = a i j) ->
    (forall i j, 0 <= i < k -> k <= j < k + n -> a' i j = x i j) ->
    (forall i j, 0 <= i < r - k -> 0 <= j < k -> a' (k + i) j = a (k + fwd (r - k) (fun q => p' (k + q) - k) (Z.to_nat n) i) j) ->
    (forall q, 0 <= q < k -> p' q = p q) ->
    lufact r (k + n) (k + n) o a' p'.
  Proof.
    intros r k n o a a' x y p p' Hk Hn Hkn (P1 & P2 & P4) HX HY (Q1 & Q2 & Q4) HA1 HA2 HA3 HP.
    set (s := fwd (r - k) (fun q => p' (k + q) - k) (Z.to_nat n)) in *.
    assert (HS : forall i, 0 <= i < r - k -> 0 <= s i < r - k) by (intros; apply fwd_range; lia).
    assert (HW : forall i, 0 <= i < r -> fwd r p' (Z.to_nat (k + n)) i = fwd r p (Z.to_nat k) (if i <? k then i else k + s (i - k))).
    { intros i Hi. replace (Z.to_nat (k + n)) with (Z.to_nat k + Z.to_nat n)%nat by lia. rewrite fwd_shift; auto; try lia.
      - fold s. apply fwd_ext. intros q Hq. apply HP. lia.
      - intros q Hq. apply Q1. lia. }
    clearbody s. split; [|split].
    - intros q Hq. destruct (Z_lt_le_dec q k) as [Hl|Hl]; [rewrite HP by lia; apply P1; lia|].
      specialize (Q1 (q - k) ltac:(lia)). cbv beta in Q1. replace (k + (q - k)) with q in Q1 by lia. lia.
    - intros i j Hi Hj. rewrite HW by auto. destruct (Z_lt_le_dec i k) as [Hik|Hik].
      + replace (i <? k) with true by zlia. rewrite (sum_upto K HF (k + n) i) by (try lia; intros q Hq; rewrite lo_zero by lia; ring).
        rewrite lo_diag. destruct (Z_lt_le_dec j k) as [Hjk|Hjk].
        * rewrite P2 by lia. rewrite (sum_upto K HF k i) by (try lia; intros q Hq; rewrite lo_zero by lia; ring). rewrite lo_diag. f_equal.
          { apply vsum_ext. intros q Hq. rewrite !lo_low by lia. rewrite HA1 by lia. unfold up. rewrite HA1 by lia. reflexivity. }
          { unfold up. rewrite HA1 by lia. reflexivity. }
        * rewrite <- HX by lia. rewrite up_up, HA2 by lia. rewrite (vsum_ext K i (fun q => lo a' i q *' up a' q j) (fun q => a i q *' x q j)).
          { ring. } intros q Hq. rewrite lo_low, up_up, HA1, HA2 by lia. reflexivity.
      + replace (i <? k) with false by zlia. set (i' := i - k) in *. assert (Hi' : 0 <= i' < r - k) by (unfold i'; Lia.lia).
        assert (Ei : i = k + i') by (unfold i'; Lia.lia). clearbody i'. subst i. specialize (HS i' Hi') as HSi.
        rewrite (vsum_split K HR k n) by lia.
        assert (X1 : vsum K k (fun q => lo a' (k + i') q *' up a' q j) = vsum K k (fun q => a (k + s i') q *' up a' q j)).
        { apply vsum_ext. intros q Hq. rewrite lo_low by lia. rewrite HA3 by lia. reflexivity. }
        rewrite X1. destruct (Z_lt_le_dec j k) as [Hjk|Hjk].
        * rewrite P2 by lia. rewrite (vsum_zero K HR n); [|intros q Hq; rewrite (up_zero a') by lia; ring].
          rewrite (vsum_ext K k (fun q => lo a (k + s i') q *' up a q j) (fun q => a (k + s i') q *' up a' q j)); [ring|].
          intros q Hq. rewrite lo_low by lia. unfold up. rewrite HA1 by lia. reflexivity.
        * specialize (Q2 i' (j - k) Hi'). cbv beta in Q2. replace (k + (j - k)) with j in Q2 by lia. cbv beta in Q2.
          assert (Q2' := Q2 ltac:(lia)). clear Q2. rewrite HY in Q2' by lia.
          rewrite (vsum_ext K n (fun q => lo a' (k + i') (k + q) *' up a' (k + q) j)
            (fun q => lo (fun i j => a' (k + i) (k + j)) i' q *' up (fun i j => a' (k + i) (k + j)) q (j - k))).
          2:{ intros q Hq. unfold lo, up. replace (k + i' =? k + q) with (i' =? q) by zlia. replace (k + q <? k + i') with (q <? i') by zlia.
              replace (q =? j - k) with (k + q =? j) by zlia. replace (q <? j - k) with (k + q <? j) by zlia.
              replace (k + (j - k)) with j by lia. reflexivity. }
          rewrite <- Q2'. rewrite (vsum_ext K k (fun q => a (k + s i') q *' x q j) (fun q => a (k + s i') q *' up a' q j)); [ring|].
          intros q Hq. rewrite up_up, HA2 by lia. reflexivity.
    - intros i q Hq Hi. destruct (Z_lt_le_dec q k) as [Hqk|Hqk].
      + destruct (Z_lt_le_dec i k) as [Hik|Hik]; [rewrite HA1 by lia; apply P4; lia|].
        replace i with (k + (i - k)) by lia. rewrite HA3 by lia. specialize (HS (i - k) ltac:(lia)). apply P4; lia.
      + specialize (Q4 (i - k) (q - k)). cbv beta in Q4. replace (k + (i - k)) with i in Q4 by lia. replace (k + (q - k)) with q in Q4 by lia.
        apply Q4; lia.
  Qed.

  Lemma errs_lift : forall k n a a' ce0 ce ce' err err', 0 <= k -> 0 < n -> errs k a ce0 ce err ->
    (forall q, 0 <= q < k -> a' q q = a q q) -> errs n (fun i j => a' (k + i) (k + j)) ce ce' err' ->
    errs (k + n) a' ce0 ce' err'.
  Proof.
    intros k n a a' ce0 ce ce' err err' Hk Hn (E1 & E2 & E3 & E4) HA (F1 & F2 & F3 & F4).
    assert (D : (exists q, 0 <= q < n /\ a' (k + q) (k + q) = zero K) \/ (forall q, 0 <= q < n -> a' (k + q) (k + q) <> zero K)).
    { clear -HE Hn. pattern n. apply (PSum.vsum_ind); try lia.
      - right. intros. lia.
      - intros m Hm [(q & Hq & Z)|H]; [left; exists q; split; [lia|auto]|].
        destruct (eqb K (a' (k + m) (k + m)) (zero K)) eqn:E; [left; exists m; split; [lia|apply HE; auto]|].
        right. intros q Hq. destruct (Z.eq_dec q m) as [->|]; [|apply H; lia]. intros Z. apply HE in Z. congruence. }
    split; [|split; [|split]].
    - intros H. rewrite F1; [apply E1; intros q Hq; rewrite <- HA by auto; apply H; lia|]. intros q Hq. apply H. lia.
    - intros (q & Hq & Z). destruct D as [D|D]; [apply F2; exact D|]. destruct (Z_lt_le_dec q k) as [Hl|Hl].
      + rewrite F1 by auto. apply E2. exists q. split; [lia|]. rewrite <- HA by lia. exact Z.
      + exfalso. apply (D (q - k)); [lia|]. replace (k + (q - k)) with q by lia. exact Z.
    - intros. lia.
    - intros _. rewrite F4 by lia. cbv beta. replace (k + (n - 1)) with (k + n - 1) by lia. reflexivity.
  Qed.
End P.

Section W.
  Context {T : Type} (K : num T).
  Hypotheses (HF : is_field K) (HE : eqb_ok K) (HO : is_ordered K).
  Let HR : is_ring K := Field_theory.F_R HF.
  Let HR' : ring_theory (zero K) (one K) (add K) (mul K) (sub K) (opp K) eq := HR.
  Add Ring KringW : HR'.
  Local Notation "a +' b" := (add K a b) (at level 50, left associativity).
  Local Notation "a -' b" := (sub K a b) (at level 50, left associativity).
  Local Notation "a *' b" := (mul K a b) (at level 40, left associativity).
  Local Notation "a << b" := (ltb K a b) (at level 70).
  Variables (E : lenv) (L : Z -> bool) (cb : cbuf).

  Definition ipos (P : pview) (ix : Z -> Z) : Z -> Z := fun q => ix (pv_off P + q).

  Definition pinv (A : view) (P : pview) (ix0 : Z -> Z) (ce0 : Z) (m0 : Z -> T) (k : Z) (s : lstate) (m : Z -> T) : Prop :=
    s_AL s = subm A 0 0 (rows A) k /\ s_pT s = subpivot P 0 k /\
    lufact K (rows A) k k (fun i j => elt m0 A i j) (fun i j => elt m A i j) (ipos P (s_ix s)) /\
    (forall i j, 0 <= i < rows A -> k <= j < cols A -> elt m A i j = elt m0 A i j) /\
    errs K k (fun i j => elt m A i j) ce0 (s_cerr s) (s_err s) /\
    (forall q, q < pv_off P \/ pv_off P + pv_n P <= q -> s_ix s q = ix0 q) /\
    outb cb (e_p E) A m0 m.

  Definition lu_post (A : view) (P : pview) (ix0 : Z -> Z) (ce0 : Z) (m0 : Z -> T) (r : Z * (Z -> Z) * Z) (m : Z -> T) : Prop :=
    let '(err, ix, ce) := r in let N := Z.min (rows A) (cols A) in
    lufact K (rows A) (cols A) N (fun i j => elt m0 A i j) (fun i j => elt m A i j) (ipos P ix) /\
    errs K N (fun i j => elt m A i j) ce0 ce err /\
    (forall q, q < pv_off P \/ pv_off P + pv_n P <= q -> ix q = ix0 q) /\
    outb cb (e_p E) A m0 m.

  Lemma pinv_0 : forall A P ix0 ce0 m, pinv A P ix0 ce0 m 0 (mklst (subm A 0 0 (rows A) 0) (subpivot P 0 0) ix0 0 ce0) m.
  Proof.
    intros. split; [reflexivity|]. split; [reflexivity|]. split; [|split; [|split; [|split]]]; cbn [s_ix s_err s_cerr]; auto.
    - split; [intros; lia|]. split; intros; lia.
    - split; [auto|]. split; [intros (q & Hq & _); lia|]. split; [auto|]. lia.
    - apply outb_refl.
  Qed.

  (* ---- the columns to the right of a wide matrix ---- *)
  Lemma tail_wp : forall A P ix0 ce0 m0 s m, env_ok E L cb A -> mok L A -> pv_n P = Z.min (rows A) (cols A) ->
    pinv A P ix0 ce0 m0 (Z.min (rows A) (cols A)) s m ->
    wp (lu_tail K E A P (b2at A (Z.min (rows A) (cols A))) (s_ix s) ;; ret (s_err s, s_ix s, s_cerr s)) L m
      (fun r m' => lu_post A P ix0 ce0 m0 r m').
  Proof.
    intros A P ix0 ce0 m0 s m EO OKA HP (_ & _ & HL & HU & HEr & HX & HOut).
    pose proof OKA as ((Hr & Hc & _) & _). set (N := Z.min (rows A) (cols A)) in *. assert (HN : 0 <= N <= rows A /\ N <= cols A) by (unfold N; Lia.lia).
    wbind. unfold lu_tail. cbn [b2at ABR ATR ATL]. apply wp_when; intros EC; change (cols (subm A N N (rows A - N) (cols A - N))) with (cols A - N) in EC.
    - assert (HNr : N = rows A) by (unfold N in *; Lia.lia). wbind.
      apply (pivot_blk_wp E L cb A); auto; [repeat split; lia|cbn [npivots pv_pivots]; lia|]. intros m1 S1 B1.
      cbn [npivots pv_pivots indexes] in S1. rewrite HP in S1.
      wbind. apply (solve_left_unit_wp K HF HE E L cb A); auto; try (repeat split; lia); try lia. intros m2 S2 B2.
      apply wp_ret. apply wp_ret.
      assert (HA : forall i j, 0 <= i < rows A -> 0 <= j < N -> elt m2 A i j = elt m A i j).
      { intros i j Hi Hj. rewrite (bo_out E cb A _ _ _ _ _ m2 i j B2) by (try split; lia). apply (bo_out E cb A _ _ _ _ _ m1 i j B1); try split; lia. }
      destruct HL as (P1 & P2 & P4). split; [|split; [|split]].
      + split; [exact P1|]. split.
        * fold N. intros i j Hi Hj. destruct (Z_lt_le_dec j N) as [Hjn|Hjn].
          { rewrite P2 by lia. apply vsum_ext. intros q Hq. f_equal.
            - unfold lo. destruct (i =? q); auto. destruct (q <? i) eqn:Eq; auto. symmetry. apply HA; lia.
            - unfold up. rewrite HA by lia. reflexivity. }
          specialize (S2 i (j - N)). replace (N + (j - N)) with j in S2 by lia. rewrite !Z.add_0_l in S2.
          assert (S2' := S2 ltac:(lia) ltac:(lia)). clear S2. specialize (S1 i (j - N)). replace (N + (j - N)) with j in S1 by lia. rewrite !Z.add_0_l in S1.
          rewrite S1 in S2' by lia. rewrite (sum_upto K HF N i) by (try lia; intros q Hq; rewrite lo_zero by lia; ring).
          rewrite lo_diag, up_up by lia. rewrite HNr in *. rewrite HU in S2' by (try lia; apply fwd_range; lia).
          change (fun k : Z => s_ix s (pv_off P + k)) with (ipos P (s_ix s)) in S2'. rewrite <- S2'.
          rewrite (vsum_ext K i (fun q => lo K (fun i j => elt m2 A i j) i q *' up K (fun i j => elt m2 A i j) q j) (fun q => elt m1 A i (0 + q) *' elt m2 A (0 + q) j)); [ring|].
          intros q Hq. rewrite lo_low, up_up by lia. rewrite !Z.add_0_l. rewrite (bo_out E cb A _ _ _ _ _ m2 i q B2) by (try split; lia). reflexivity.
        * fold N. intros i q Hq Hi. rewrite HA by lia. apply P4; lia.
      + fold N. destruct HEr as (E1 & E2 & E3 & E4). split; [intros H; apply E1; intros q Hq; rewrite <- HA by lia; apply H; auto|].
        split; [intros (q & Hq & Z0); apply E2; exists q; split; auto; rewrite <- HA by lia; exact Z0|]. split; auto.
        intros H0. rewrite HA by lia. apply E4. exact H0.
      + exact HX.
      + eapply outb_trans; [exact HOut|]. eapply outb_trans; eapply bo_outb; eauto.
    - apply wp_ret. assert (HNc : N = cols A) by (unfold N in *; Lia.lia). split; [|split; [|split]]; auto. fold N. rewrite <- HNc. exact HL.
  Qed.

  (* ---- one column ---- *)
  Lemma col_at : forall A k, 0 < rows A - k -> 0 < cols A - k -> armas_column (subm A k k (rows A - k) (cols A - k)) 0 = subm A k k (rows A - k) 1.
  Proof.
    intros A k H1 H2. unfold armas_column, armas_size, armas_submatrix_unsafe, armas_make. cbn [rows cols elems step].
    replace ((rows A - k) * (cols A - k) =? 0) with false by (symmetry; apply Z.eqb_neq; nia).
    change (0 <? 0) with false. cbv iota. f_equal. lia.
  Qed.

  Lemma pv_set_in : forall ix p v q, 0 < pv_n p -> pv_set ix p 0 v q = if q =? pv_off p then v else ix q.
  Proof. intros ix p v q H. unfold pv_set. replace ((0 <=? 0) && (0 <? pv_n p)) with true by zlia. rewrite Z.add_0_r. reflexivity. Qed.

  Lemma unblk_lu_wp : forall A P ix0 ce0 m0, env_ok E L cb A -> mok L A -> pv_n P = Z.min (rows A) (cols A) ->
    wp (unblk_lufactor K E A P ix0 ce0) L m0 (fun r m' => lu_post A P ix0 ce0 m0 r m').
  Proof.
    intros A P ix0 ce0 m0 EO OKA HP. pose proof OKA as ((Hr & Hc & _) & _). pose proof EO as (_ & _ & F1 & F2 & _).
    set (N := Z.min (rows A) (cols A)) in *. assert (HN : 0 <= N <= rows A /\ N <= cols A) by (unfold N; Lia.lia).
    unfold unblk_lufactor, mat_partition_1x2, pivot_2x1_top. replace (0 >? cols A) with false by zlia. replace (0 >? pv_n P) with false by zlia.
    cbv zeta. wbind. rewrite part_at.
    apply (wp_down L A 1 more (N - 1) _ (fun k s m' => pinv A P ix0 ce0 m0 k s m')); try (fold N; lia).
    - intros q Hq. apply more_iff. exact Hq.
    - apply pinv_0.
    - intros k s m1 Hk (IA & IP & HL & HU & HEr & HX & HOut). replace (Z.min 1 (Z.min (rows A - k) (cols A - k))) with 1 by Lia.lia. cbv zeta.
      destruct s as [sAL spT ix err ce]. cbn [s_AL s_pT s_ix s_err s_cerr] in *. subst sAL spT.
      unfold mat_repartition_1x2to1x3, pivot_repart_bottom, mat_continue_1x3to1x2, pivot_cont_bottom.
      change (cols (subm A 0 0 (rows A) k)) with k. change (pv_n (subpivot P 0 k)) with k.
      replace (k + 1 >? cols A) with false by zlia. replace (k + 1 >? pv_n P) with false by zlia. cbv zeta.
      cbn [b3at b2at A00 A01 A10 A11 A20 A21 ABR ABL ATL].
      set (r := rows A) in *. assert (Hkr : 0 <= k < r /\ k < cols A) by (unfold r in *; lia).
      wbind. apply (pivot_blk_wp E L cb A); auto; [repeat split; fold r; lia|cbn [npivots pv_pivots subpivot pv_n]; lia|]. intros m2 S2 B2.
      wbind. apply (mvsolve_unit_wp K HF HE E L cb A); auto; try (repeat split; fold r; lia); try lia. intros m3 S3 B3.
      wbind. apply (get_blk_wp K E L A); auto; [repeat split; fold r; lia|].
      wbind. apply (dot_blk_wp K HF E L cb A); auto; try (repeat split; fold r; lia).
      wbind. apply (set_blk_wp E L cb A); auto; [repeat split; fold r; lia|]. intros m4 S4 B4.
      wbind. apply (mvmult_blk_wp K HF HE E L cb A); auto; try (repeat split; fold r; lia); try lia. intros m5 S5 B5.
      unfold r at 1 2. rewrite col_at by (fold r; lia). fold r.
      wbind. apply (iamax_blk_wp K L A); auto; [apply (ordered_ltb_ok K HO)|intros; apply (abs_nn K HF HO)|repeat split; fold r; lia|lia|]. intros im Him HM.
      cbv zeta. set (p1 := subpivot P k 1). set (ix1 := pv_set ix p1 0 (im + 1)).
      wbind. apply (pivot_blk_wp E L cb A); auto; [repeat split; fold r; lia|cbn [npivots pv_pivots subpivot pv_n p1]; lia|]. intros m6 S6 B6.
      wbind. apply (get_blk_wp K E L A); auto; [repeat split; fold r; lia|].
      cbn [npivots pv_pivots indexes p1 subpivot pv_n pv_off] in S6.
      set (sg := fwd (r - k) (fun q => ix1 (pv_off P + k + q)) (Z.to_nat 1)) in *.
      assert (HS : forall i, 0 <= i < r - k -> 0 <= sg i < r - k) by (intros; apply fwd_range; lia).
      assert (S0 : sg 0 = im).
      { unfold sg. change (Z.to_nat 1) with 1%nat. cbn [fwd Z.of_nat]. rewrite Z.add_0_r. unfold ichg, ix1. rewrite pv_set_in by (cbn; lia).
        cbn [p1 subpivot pv_off]. rewrite Z.eqb_refl. replace ((0 <? im + 1) && (im + 1 <=? r - k)) with true by zlia.
        unfold transp. destruct (0 =? im + 1 - 1) eqn:E0; [lia|]. rewrite Z.eqb_refl. lia. }
      assert (M6 : forall i, k <= i < r -> elt m6 A i k = elt m5 A (k + sg (i - k)) k).
      { intros i Hi. specialize (S6 (i - k) 0). replace (k + (i - k)) with i in S6 by lia. rewrite Z.add_0_r in S6. apply S6; lia. }
      assert (MX : forall i, k <= i < r -> abs K (elt m6 A k k) << abs K (elt m6 A i k) = false).
      { intros i Hi. rewrite (M6 k) by lia. rewrite Z.sub_diag, S0. rewrite M6 by lia. apply HM. apply HS. lia. }
      assert (SE : sg = fwd (r - k) (fun q => ix1 (pv_off P + k + q)) (Z.to_nat 1)) by reflexivity. clearbody sg.
      wbind. apply (wp_conseq _ _ _ _ (fun ec m7 =>
        (forall i, k < i < r -> elt m7 A i k *' elt m6 A k k = elt m6 A i k /\ one K << abs K (elt m7 A i k) = false) /\
        blk_only E cb A (k + 1) k (r - k - 1) 1 m6 m7 /\ ec = if eqb K (elt m6 A k k) (zero K) then (-1, ARMAS_ESINGULAR) else (0, ce))).
      { apply wp_if; intros EZ.
        - apply wp_ret. split; [|split; [split; [auto|apply outb_refl]|rewrite EZ; reflexivity]]. apply HE in EZ.
          intros i Hi. specialize (MX i ltac:(lia)). rewrite EZ in MX. apply (abs_le_zero K HF HE HO) in MX. rewrite MX, EZ. split; [ring|].
          rewrite (abs_of_nn K HO) by apply (o_irr K HO). apply (o_nlt K HO). apply (o_one K HF HO).
        - assert (ND : elt m6 A k k <> zero K) by (intros Z0; apply HE in Z0; congruence).
          wbind. apply (scale_col_wp K E L cb A); auto; [repeat split; fold r; lia|]. intros m7 S7 B7. apply wp_ret.
          split; [|split; [exact B7|rewrite EZ; reflexivity]]. intros i Hi. rewrite S7 by lia. split.
          + replace (elt m6 A i k *' div K (one K) (elt m6 A k k) *' elt m6 A k k) with ((elt m6 A i k *' elt m6 A k k) *' div K (one K) (elt m6 A k k)) by ring.
            apply (mul_inv K HF). exact ND.
          + apply (quot_le K HF HO); auto. apply MX. lia. }
      intros ec m7 (M7 & B7 & EC).
      wbind. apply (pivot_blk_wp E L cb A); auto; [repeat split; fold r; lia|cbn [npivots pv_pivots subpivot pv_n p1]; lia|]. intros m8 S8 B8.
      cbn [npivots pv_pivots indexes p1 subpivot pv_n pv_off] in S8. rewrite <- SE in S8.
      apply wp_ret. change (cols (subm A 0 k r 1)) with 1. change (rows (subm A 0 0 k k)) with k. change (pv_n (subpivot P k 1)) with 1.
      set (ix2 := pv_set ix1 p1 0 (im + 1 + k)).
      assert (X2 : forall q, ix2 q = if q =? pv_off P + k then im + 1 + k else ix q).
      { intros q. unfold ix2. rewrite pv_set_in by (cbn; lia). cbn [p1 subpivot pv_off]. destruct (q =? pv_off P + k) eqn:Eq; [reflexivity|].
        unfold ix1. rewrite pv_set_in by (cbn; lia). cbn [p1 subpivot pv_off]. rewrite Eq. reflexivity. }
      assert (SE2 : forall i, sg i = fwd (r - k) (fun q => ipos P ix2 (k + q) - k) (Z.to_nat 1) i).
      { intros i. rewrite SE. apply fwd_ext. intros q Hq. assert (q = 0) by lia. subst q. unfold ipos. rewrite X2.
        replace (pv_off P + (k + 0) =? pv_off P + k) with true by zlia. unfold ix1. rewrite pv_set_in by (cbn; lia). cbn [p1 subpivot pv_off].
        replace (pv_off P + k + 0 =? pv_off P + k) with true by zlia. lia. }
      clearbody ix1 ix2.
      (* the old columns *)
      assert (D1 : forall i j, 0 <= i < r -> 0 <= j < k -> elt m7 A i j = elt m1 A i j).
      { intros i j Hi Hj. rewrite (bo_out E cb A _ _ _ _ _ m7 i j B7), (bo_out E cb A _ _ _ _ _ m6 i j B6), (bo_out E cb A _ _ _ _ _ m5 i j B5),
          (bo_out E cb A _ _ _ _ _ m4 i j B4), (bo_out E cb A _ _ _ _ _ m3 i j B3) by (try split; fold r; lia).
        apply (bo_out E cb A _ _ _ _ _ m2 i j B2); try split; fold r; lia. }
      assert (D3 : forall i j, 0 <= i < r -> 0 <= j < k -> elt m3 A i j = elt m1 A i j).
      { intros i j Hi Hj. rewrite (bo_out E cb A _ _ _ _ _ m3 i j B3) by (try split; fold r; lia).
        apply (bo_out E cb A _ _ _ _ _ m2 i j B2); try split; fold r; lia. }
      assert (D8 : forall i j, 0 <= i < r -> 0 <= j < cols A -> ~ (k <= i /\ j < k) -> elt m8 A i j = elt m7 A i j).
      { intros i j Hi Hj Hn. apply (bo_out E cb A _ _ _ _ _ m8 i j B8); try split; fold r; lia. }
      assert (DX : forall i, 0 <= i < k -> elt m7 A i k = elt m3 A i k).
      { intros i Hi. rewrite (bo_out E cb A _ _ _ _ _ m7 i k B7), (bo_out E cb A _ _ _ _ _ m6 i k B6), (bo_out E cb A _ _ _ _ _ m5 i k B5) by (try split; fold r; lia).
        apply (bo_out E cb A _ _ _ _ _ m4 i k B4); try split; fold r; lia. }
      assert (O2 : forall i, 0 <= i < r -> elt m2 A i k = elt m0 A (fwd r (ipos P ix) (Z.to_nat k) i) k).
      { intros i Hi. specialize (S2 i 0 Hi ltac:(lia)). rewrite Z.add_0_l, Z.add_0_r in S2. rewrite S2. rewrite Z.add_0_l.
        cbn [npivots pv_pivots indexes subpivot pv_n pv_off]. rewrite (fwd_ext r _ (ipos P ix)) by (intros q Hq; unfold ipos; f_equal; lia).
        apply HU; [apply fwd_range; lia|lia]. }
      assert (HL' : lufact K r (k + 1) (k + 1) (fun i j => elt m0 A i j) (fun i j => elt m8 A i j) (ipos P ix2)).
      { apply (lift K HF r k 1 (fun i j => elt m0 A i j) (fun i j => elt m1 A i j) (fun i j => elt m8 A i j) (fun i j => elt m3 A i k) (fun i j => elt m5 A i k) (ipos P ix) (ipos P ix2)); try lia.
        - exact HL.
        - intros i j Hi Hj. assert (j = k) by lia. subst j. specialize (S3 i Hi). rewrite !Z.add_0_l in S3. rewrite O2 in S3 by lia. rewrite <- S3. f_equal.
          apply vsum_ext. intros q Hq. rewrite !Z.add_0_l. rewrite (bo_out E cb A _ _ _ _ _ m2 i q B2) by (try split; fold r; lia). reflexivity.
        - intros i j Hi Hj. assert (j = k) by lia. subst j. rewrite <- O2 by lia. destruct (Z.eq_dec i k) as [->|Hn].
          + rewrite (bo_out E cb A _ _ _ _ _ m5 k k B5) by (try split; fold r; lia). rewrite S4.
            rewrite (bo_out E cb A _ _ _ _ _ m3 k k B3) by (try split; fold r; lia). f_equal.
            apply vsum_ext. intros q Hq. rewrite !Z.add_0_l. rewrite D3 by lia. reflexivity.
          + rewrite S5 by lia. rewrite (bo_out E cb A _ _ _ _ _ m4 i k B4), (bo_out E cb A _ _ _ _ _ m3 i k B3) by (try split; fold r; lia). f_equal.
            apply vsum_ext. intros q Hq. rewrite !Z.add_0_l. rewrite (bo_out E cb A _ _ _ _ _ m4 i q B4), (bo_out E cb A _ _ _ _ _ m4 q k B4) by (try split; fold r; lia).
            rewrite D3 by lia. reflexivity.
        - assert (C8 : forall i, k <= i < r -> elt m8 A i k = elt m7 A i k) by (intros; apply D8; lia).
          assert (C7 : elt m7 A k k = elt m6 A k k) by (apply (bo_out E cb A _ _ _ _ _ m7 k k B7); try split; fold r; lia).
          split; [|split].
          + intros q Hq. assert (q = 0) by lia. subst q. unfold ipos. rewrite X2. replace (pv_off P + (k + 0) =? pv_off P + k) with true by zlia. lia.
          + intros i j Hi Hj. assert (j = 0) by lia. subst j. rewrite <- SE2. rewrite (vsum_1 K HR). rewrite up_up by lia. rewrite !Z.add_0_r.
            specialize (M6 (k + i)). replace (k + i - k) with i in M6 by lia. rewrite <- M6 by lia. rewrite C8 by lia. rewrite C7.
            destruct (Z.eq_dec i 0) as [->|Hn]; [rewrite lo_diag, Z.add_0_r; ring|]. rewrite lo_low by lia. rewrite Z.add_0_r. rewrite C8 by lia.
            symmetry. apply M7. lia.
          + intros i q Hq Hi. assert (q = 0) by lia. subst q. rewrite Z.add_0_r. rewrite C8 by lia. apply M7. lia.
        - intros i j Hi Hj. rewrite D8 by lia. apply D1; lia.
        - intros i j Hi Hj. assert (j = k) by lia. subst j. rewrite D8 by lia. apply DX; lia.
        - intros i j Hi Hj. rewrite <- SE2. specialize (S8 i j Hi Hj). rewrite Z.add_0_l in S8. rewrite S8. specialize (HS i Hi). apply D1; lia.
        - intros q Hq. unfold ipos. rewrite X2. replace (pv_off P + q =? pv_off P + k) with false by zlia. reflexivity. }
      split; [reflexivity|]. split; [reflexivity|]. cbn [s_ix s_err s_cerr]. split; [exact HL'|]. split; [|split; [|split]].
      + intros i j Hi Hj. rewrite D8 by lia. rewrite (bo_out E cb A _ _ _ _ _ m7 i j B7), (bo_out E cb A _ _ _ _ _ m6 i j B6), (bo_out E cb A _ _ _ _ _ m5 i j B5),
          (bo_out E cb A _ _ _ _ _ m4 i j B4), (bo_out E cb A _ _ _ _ _ m3 i j B3), (bo_out E cb A _ _ _ _ _ m2 i j B2) by (try split; fold r; lia).
        apply HU; lia.
      + apply (errs_lift K HE k 1 (fun i j => elt m1 A i j) _ ce0 ce _ err); try lia; auto.
        { intros q Hq. rewrite D8 by lia. apply D1; lia. }
        assert (C8 : elt m8 A k k = elt m6 A k k).
        { rewrite D8 by lia. apply (bo_out E cb A _ _ _ _ _ m7 k k B7); try split; fold r; lia. }
        subst ec. split; [|split; [|split]].
        * intros H. specialize (H 0 ltac:(lia)). rewrite Z.add_0_r, C8 in H. destruct (eqb K (elt m6 A k k) (zero K)) eqn:EZ; [apply HE in EZ; contradiction|reflexivity].
        * intros (q & Hq & Z0). assert (q = 0) by lia. subst q. rewrite Z.add_0_r, C8 in Z0. apply HE in Z0. rewrite Z0. reflexivity.
        * lia.
        * intros _. replace (k + (1 - 1)) with k by lia. rewrite C8. destruct (eqb K (elt m6 A k k) (zero K)); reflexivity.
      + intros q Hq. rewrite X2. replace (q =? pv_off P + k) with false by zlia. apply HX. exact Hq.
      + eapply outb_trans; [exact HOut|]. eapply outb_trans; [eapply bo_outb; exact B2|]. eapply outb_trans; [eapply bo_outb; exact B3|].
        eapply outb_trans; [eapply bo_outb; exact B4|]. eapply outb_trans; [eapply bo_outb; exact B5|]. eapply outb_trans; [eapply bo_outb; exact B6|].
        eapply outb_trans; [eapply bo_outb; exact B7|]. eapply bo_outb; exact B8.
    - intros q s m Hq1 Hq2 HI. assert (q = N) by (unfold N in *; Lia.lia). subst q. apply tail_wp; auto.
  Qed.

  (* ---- one block of columns ---- *)
  Lemma shift_at : forall n k p1 d ix q, 0 <= k -> k + Z.of_nat n <= pv_n p1 ->
    shift_pivots n k p1 d ix q = if (pv_off p1 + k <=? q) && (q <? pv_off p1 + k + Z.of_nat n) then ix q + d else ix q.
  Proof.
    induction n as [|n IH]; intros k p1 d ix q Hk Hn; cbn [shift_pivots].
    - replace ((pv_off p1 + k <=? q) && (q <? pv_off p1 + k + Z.of_nat 0)) with false by zlia. reflexivity.
    - rewrite IH by lia. unfold pv_set, pv_get, armas_pivot_get, pv_pivots. cbn [npivots indexes].
      replace ((0 <=? k) && (k <? pv_n p1)) with true by zlia.
      destruct (q =? pv_off p1 + k) eqn:Eq.
      + replace ((pv_off p1 + (k + 1) <=? q) && (q <? pv_off p1 + (k + 1) + Z.of_nat n)) with false by zlia.
        replace ((pv_off p1 + k <=? q) && (q <? pv_off p1 + k + Z.of_nat (S n))) with true by zlia. do 2 f_equal. lia.
      + replace ((pv_off p1 + (k + 1) <=? q) && (q <? pv_off p1 + (k + 1) + Z.of_nat n))
          with ((pv_off p1 + k <=? q) && (q <? pv_off p1 + k + Z.of_nat (S n))) by zlia. reflexivity.
  Qed.

  Lemma blk_lu_wp : forall A P lb ix0 ce0 m0, 0 < lb -> env_ok E L cb A -> mok L A -> pv_n P = Z.min (rows A) (cols A) ->
    wp (blk_lufactor K E A P lb ix0 ce0) L m0 (fun r m' => lu_post A P ix0 ce0 m0 r m').
  Proof.
    intros A P lb ix0 ce0 m0 Hlb EO OKA HP. pose proof OKA as ((Hr & Hc & _) & _). pose proof EO as (_ & _ & F1 & F2 & _).
    set (N := Z.min (rows A) (cols A)) in *. assert (HN : 0 <= N <= rows A /\ N <= cols A) by (unfold N; Lia.lia).
    unfold blk_lufactor, mat_partition_1x2, pivot_2x1_top. replace (0 >? cols A) with false by zlia. replace (0 >? pv_n P) with false by zlia.
    cbv zeta. wbind. rewrite part_at.
    apply (wp_down L A lb more (N - 1) _ (fun k s m' => pinv A P ix0 ce0 m0 k s m')); try (fold N; lia).
    - intros q Hq. apply more_iff. exact Hq.
    - apply pinv_0.
    - intros k s m1 Hk (IA & IP & HL & HU & HEr & HX & HOut).
      set (n := Z.min lb (Z.min (rows A - k) (cols A - k))).
      assert (Hn : 0 < n /\ k + n <= rows A /\ k + n <= cols A) by (unfold n; Lia.lia). clearbody n. cbv zeta.
      destruct s as [sAL spT ix err ce]. cbn [s_AL s_pT s_ix s_err s_cerr] in *. subst sAL spT.
      cbn [b3at b2at A00 A01 A10 A11 A20 A21 ABR ABL ATL].
      change (cols (subm A k k n n)) with n.
      unfold mat_repartition_1x2to1x3, pivot_repart_bottom, mat_continue_1x3to1x2, pivot_cont_bottom.
      change (cols (subm A 0 0 (rows A) k)) with k. change (pv_n (subpivot P 0 k)) with k.
      replace (k + n >? cols A) with false by zlia. replace (k + n >? pv_n P) with false by (symmetry; rewrite HP; unfold N; Lia.lia). cbv zeta.
      set (r := rows A) in *. assert (Hkr : 0 <= k < r /\ k < cols A) by (unfold r in *; lia).
      wbind. apply (pivot_blk_wp E L cb A); auto; [repeat split; fold r; lia|cbn [npivots pv_pivots subpivot pv_n]; lia|]. intros m2 S2 B2.
      wbind. apply (solve_left_unit_wp K HF HE E L cb A); auto; try (repeat split; fold r; lia); try lia. intros m3 S3 B3.
      wbind. apply (mult_wp K HF HE E L cb A); auto; try (repeat split; fold r; lia); try lia. intros m4 S4 B4.
      wbind. apply (mult_wp K HF HE E L cb A); auto; try (repeat split; fold r; lia); try lia. intros m5 S5 B5.
      rewrite merge2x1_sub by (try lia; destruct OKA; auto). replace (n + (r - k - n)) with (r - k) by lia.
      assert (IV : inA A k k (r - k) n) by (repeat split; fold r; lia).
      wbind. eapply wp_conseq; [apply (unblk_lu_wp (subm A k k (r - k) n) (subpivot P k n) ix ce m5)|].
      { apply V_env; auto. }
      { apply V_ok; auto. }
      { cbn [subpivot pv_n rows cols armas_submatrix_unsafe armas_make]. Lia.lia. }
      intros ((err' & ix') & ce') m6 PO. unfold lu_post in PO. cbn [rows cols armas_submatrix_unsafe armas_make] in PO.
      replace (Z.min (r - k) n) with n in PO by Lia.lia. destruct PO as (HL6 & HE6 & HX6 & O6).
      pose proof (blk_frame E L cb A EO OKA k k (r - k) n m5 m6 IV O6) as B6. cbn [subpivot pv_off pv_n] in HX6.
      wbind. apply (pivot_blk_wp E L cb A); auto; [repeat split; fold r; lia|cbn [npivots pv_pivots subpivot pv_n]; lia|]. intros m8 S8 B8.
      cbn [npivots pv_pivots indexes subpivot pv_n pv_off] in S8.
      apply wp_ret. change (cols (subm A 0 k r n)) with n. change (rows (subm A 0 0 k k)) with k. change (pv_n (subpivot P k n)) with n.
      set (ix2 := shift_pivots (Z.to_nat n) 0 (subpivot P k n) k ix').
      assert (X2 : forall q, ix2 q = if (pv_off P + k <=? q) && (q <? pv_off P + k + n) then ix' q + k else ix' q).
      { intros q. unfold ix2. rewrite shift_at by (cbn [subpivot pv_n]; lia). cbn [subpivot pv_off]. rewrite Z.add_0_r, Z2Nat.id by lia. reflexivity. }
      assert (XI : forall q, 0 <= q < n -> ipos P ix2 (k + q) - k = ipos (subpivot P k n) ix' q).
      { intros q Hq. unfold ipos. rewrite X2. cbn [subpivot pv_off]. replace (pv_off P + (k + q)) with (pv_off P + k + q) by lia.
        replace ((pv_off P + k <=? pv_off P + k + q) && (pv_off P + k + q <? pv_off P + k + n)) with true by zlia. lia. }
      clearbody ix2.
      set (sg := fwd (r - k) (fun q => ipos P ix2 (k + q) - k) (Z.to_nat n)).
      assert (SE : forall i, fwd (r - k) (ipos (subpivot P k n) ix') (Z.to_nat n) i = sg i).
      { intros i. apply fwd_ext. intros q Hq. symmetry. apply XI. lia. }
      assert (HS : forall i, 0 <= i < r - k -> 0 <= sg i < r - k) by (intros; apply fwd_range; lia).
      (* the old columns *)
      assert (D1 : forall i j, 0 <= i < r -> 0 <= j < k -> elt m6 A i j = elt m1 A i j).
      { intros i j Hi Hj. rewrite (bo_out E cb A _ _ _ _ _ m6 i j B6), (bo_out E cb A _ _ _ _ _ m5 i j B5),
          (bo_out E cb A _ _ _ _ _ m4 i j B4), (bo_out E cb A _ _ _ _ _ m3 i j B3) by (try split; fold r; lia).
        apply (bo_out E cb A _ _ _ _ _ m2 i j B2); try split; fold r; lia. }
      assert (D3 : forall i j, 0 <= i < r -> 0 <= j < k -> elt m3 A i j = elt m1 A i j).
      { intros i j Hi Hj. rewrite (bo_out E cb A _ _ _ _ _ m3 i j B3) by (try split; fold r; lia).
        apply (bo_out E cb A _ _ _ _ _ m2 i j B2); try split; fold r; lia. }
      assert (D8 : forall i j, 0 <= i < r -> 0 <= j < cols A -> ~ (k <= i /\ j < k) -> elt m8 A i j = elt m6 A i j).
      { intros i j Hi Hj Hnn. apply (bo_out E cb A _ _ _ _ _ m8 i j B8); try split; fold r; lia. }
      assert (DX : forall i j, 0 <= i < k -> k <= j < k + n -> elt m6 A i j = elt m3 A i j).
      { intros i j Hi Hj. rewrite (bo_out E cb A _ _ _ _ _ m6 i j B6), (bo_out E cb A _ _ _ _ _ m5 i j B5) by (try split; fold r; lia).
        apply (bo_out E cb A _ _ _ _ _ m4 i j B4); try split; fold r; lia. }
      assert (O2 : forall i j, 0 <= i < r -> k <= j < k + n -> elt m2 A i j = elt m0 A (fwd r (ipos P ix) (Z.to_nat k) i) j).
      { intros i j Hi Hj. specialize (S2 i (j - k) Hi ltac:(lia)). rewrite Z.add_0_l in S2. replace (k + (j - k)) with j in S2 by lia. rewrite S2. rewrite Z.add_0_l.
        cbn [npivots pv_pivots indexes subpivot pv_n pv_off]. rewrite (fwd_ext r _ (ipos P ix)) by (intros q Hq; unfold ipos; f_equal; lia).
        apply HU; [apply fwd_range; lia|lia]. }
      assert (LF : lufact K (r - k) n n (fun i j => elt m5 A (k + i) (k + j)) (fun i j => elt m8 A (k + i) (k + j)) (fun q => ipos P ix2 (k + q) - k)).
      { destruct HL6 as (Q1 & Q2 & Q4). split; [|split].
        - intros q Hq. rewrite XI by auto. apply Q1; auto.
        - intros i j Hi Hj. fold sg. rewrite <- SE. specialize (Q2 i j Hi Hj). cbv beta in Q2. rewrite V_elt in Q2. rewrite Q2.
          apply vsum_ext. intros q Hq. unfold lo, up. rewrite !V_elt. rewrite !D8 by (try lia). reflexivity.
        - intros i q Hq Hi. rewrite D8 by lia. specialize (Q4 i q Hq Hi). cbv beta in Q4. rewrite V_elt in Q4. exact Q4. }
      assert (HL' : lufact K r (k + n) (k + n) (fun i j => elt m0 A i j) (fun i j => elt m8 A i j) (ipos P ix2)).
      { apply (lift K HF r k n (fun i j => elt m0 A i j) (fun i j => elt m1 A i j) (fun i j => elt m8 A i j) (fun i j => elt m3 A i j) (fun i j => elt m5 A i j) (ipos P ix) (ipos P ix2)); try lia.
        - exact HL.
        - intros i j Hi Hj. specialize (S3 i (j - k) Hi ltac:(lia)). rewrite !Z.add_0_l in S3. replace (k + (j - k)) with j in S3 by lia. rewrite O2 in S3 by lia. rewrite <- S3. f_equal.
          apply vsum_ext. intros q Hq. rewrite !Z.add_0_l. rewrite (bo_out E cb A _ _ _ _ _ m2 i q B2) by (try split; fold r; lia). reflexivity.
        - intros i j Hi Hj. rewrite <- O2 by lia. destruct (Z_lt_le_dec i (k + n)) as [Hl|Hl].
          + rewrite (bo_out E cb A _ _ _ _ _ m5 i j B5) by (try split; fold r; lia). rewrite S4 by (unfold inb; lia).
            rewrite (bo_out E cb A _ _ _ _ _ m3 i j B3) by (try split; fold r; lia). f_equal.
            apply vsum_ext. intros q Hq. rewrite !Z.add_0_l. rewrite D3 by lia. reflexivity.
          + rewrite S5 by (unfold inb; lia). rewrite (bo_out E cb A _ _ _ _ _ m4 i j B4), (bo_out E cb A _ _ _ _ _ m3 i j B3) by (try split; fold r; lia). f_equal.
            apply vsum_ext. intros q Hq. rewrite !Z.add_0_l. rewrite (bo_out E cb A _ _ _ _ _ m4 i q B4), (bo_out E cb A _ _ _ _ _ m4 q j B4) by (try split; fold r; lia).
            rewrite D3 by lia. reflexivity.
        - exact LF.
        - intros i j Hi Hj. rewrite D8 by lia. apply D1; lia.
        - intros i j Hi Hj. rewrite D8 by lia. apply DX; lia.
        - intros i j Hi Hj. fold sg. specialize (S8 i j Hi Hj). rewrite Z.add_0_l in S8. rewrite S8.
          change (fun k0 : Z => ix' (pv_off P + k + k0)) with (ipos (subpivot P k n) ix'). rewrite SE. specialize (HS i Hi). apply D1; lia.
        - intros q Hq. unfold ipos. rewrite X2. replace ((pv_off P + k <=? pv_off P + q) && (pv_off P + q <? pv_off P + k + n)) with false by zlia. apply HX6. lia. }
      split; [reflexivity|]. split; [reflexivity|]. cbn [s_ix s_err s_cerr]. split; [exact HL'|]. split; [|split; [|split]].
      + intros i j Hi Hj. rewrite D8 by lia. rewrite (bo_out E cb A _ _ _ _ _ m6 i j B6), (bo_out E cb A _ _ _ _ _ m5 i j B5),
          (bo_out E cb A _ _ _ _ _ m4 i j B4), (bo_out E cb A _ _ _ _ _ m3 i j B3), (bo_out E cb A _ _ _ _ _ m2 i j B2) by (try split; fold r; lia).
        apply HU; lia.
      + apply (errs_lift K HE k n (fun i j => elt m1 A i j) _ ce0 ce _ err); try lia; auto.
        { intros q Hq. rewrite D8 by lia. apply D1; lia. }
        assert (C8 : forall q, 0 <= q < n -> elt m8 A (k + q) (k + q) = elt m6 (subm A k k (r - k) n) q q) by (intros; rewrite V_elt; apply D8; lia).
        destruct HE6 as (G1 & G2 & G3 & G4). split; [|split; [|split]].
        * intros H. apply G1. intros q Hq. rewrite <- C8 by auto. apply H; auto.
        * intros (q & Hq & Z0). apply G2. exists q. split; auto. rewrite <- C8 by auto. exact Z0.
        * lia.
        * intros Hp. rewrite C8 by lia. apply G4. exact Hp.
      + intros q Hq. rewrite X2. assert (n <= pv_n P - k) by (rewrite HP; unfold N, r in *; Lia.lia).
        replace ((pv_off P + k <=? q) && (q <? pv_off P + k + n)) with false by zlia. rewrite HX6 by lia. apply HX. exact Hq.
      + eapply outb_trans; [exact HOut|]. eapply outb_trans; [eapply bo_outb; exact B2|]. eapply outb_trans; [eapply bo_outb; exact B3|].
        eapply outb_trans; [eapply bo_outb; exact B4|]. eapply outb_trans; [eapply bo_outb; exact B5|]. eapply outb_trans; [eapply bo_outb; exact B6|].
        eapply bo_outb; exact B8.
    - intros q s m Hq1 Hq2 HI. assert (q = N) by (unfold N in *; Lia.lia). subst q. apply tail_wp; auto.
  Qed.
End W.
