(* PUpdTrm.v: correctness of the triangular rank-k update.  The updates write blocks of C one
   after the other; the invariant says which elements of C have their final value. *)
From Coq Require Import ZArith Lia Bool ZifyBool Ring.
From Verif Require Import Mem MView SpecView PView PSub Hoare MFlags MBase MCopy PUpd PCopy
  MNum SpecNum MBlas1 PSum PBlas1 MElem PElem MBlas2 PMvec PBlas2
  PFrame SpecTrm MTrm PTrm MGemm PGemm PMatcpy PMult MTrsm PTrsm MUpdTrm.
Local Open Scope Z_scope.
Local Open Scope prog_scope.

Ltac lia := nobool; zlia.

(* for goals about block membership: drop everything but arithmetic *)
Ltac bl := repeat match goal with H : if _ then _ else _ |- _ => clear H end; nobool; zclear;
  repeat match goal with x := _ |- _ => clear x end; Lia.lia.

Local Notation subm := armas_submatrix_unsafe.

Lemma sub_sub : forall A r c nr nc r' c' nr' nc',
  subm (subm A r c nr nc) r' c' nr' nc' = subm A (r + r') (c + c') nr' nc'.
Proof.
  intros. unfold armas_submatrix_unsafe, armas_make. cbn [elems step rows cols]. f_equal. ring.
Qed.
Lemma sub_id : forall A, subm A 0 0 (rows A) (cols A) = A.
Proof. intros [e s r c]. unfold armas_submatrix_unsafe, armas_make. cbn [elems step rows cols]. f_equal. ring. Qed.
Lemma col_sub : forall A i, armas_column_unsafe A i = subm A 0 i (rows A) 1.
Proof. intros. unfold armas_column_unsafe, armas_submatrix_unsafe, armas_make. f_equal. ring. Qed.
Lemma row_sub : forall A i, armas_row_unsafe A i = subm A i 0 1 (cols A).
Proof. intros. unfold armas_row_unsafe, armas_submatrix_unsafe, armas_make. f_equal; ring. Qed.

Lemma updA_updA : forall fl A i n j k, upd_A fl (upd_A fl A i n) j k = upd_A fl A (i + j) k.
Proof. intros. unfold upd_A. destruct (has fl ARMAS_TRANSA); rewrite sub_sub; reflexivity. Qed.
Lemma updB_updB : forall fl A i n j k, upd_B fl (upd_B fl A i n) j k = upd_B fl A (i + j) k.
Proof. intros. unfold upd_B. destruct (has fl ARMAS_TRANSB); rewrite sub_sub; reflexivity. Qed.
Lemma updA_from : forall fl A i n j, upd_A_from fl (upd_A fl A i n) j = upd_A fl A (i + j) (n - j).
Proof. intros. unfold upd_A, upd_A_from. destruct (has fl ARMAS_TRANSA); rewrite sub_sub; reflexivity. Qed.
Lemma updB_from : forall fl A i n j, upd_B_from fl (upd_B fl A i n) j = upd_B fl A (i + j) (n - j).
Proof. intros. unfold upd_B, upd_B_from. destruct (has fl ARMAS_TRANSB); rewrite sub_sub; reflexivity. Qed.
Lemma updA_one : forall fl A i n j,
  (if has fl ARMAS_TRANSA then armas_column_unsafe (upd_A fl A i n) j else armas_row_unsafe (upd_A fl A i n) j) = upd_A fl A (i + j) 1.
Proof. intros. unfold upd_A. destruct (has fl ARMAS_TRANSA); rewrite ?col_sub, ?row_sub, sub_sub; reflexivity. Qed.
Lemma updB_one : forall fl A i n j,
  (if has fl ARMAS_TRANSB then armas_row_unsafe (upd_B fl A i n) j else armas_column_unsafe (upd_B fl A i n) j) = upd_B fl A (i + j) 1.
Proof. intros. unfold upd_B. destruct (has fl ARMAS_TRANSB); rewrite ?col_sub, ?row_sub, sub_sub; reflexivity. Qed.

(* the sizes that halving reaches without meeting an odd size that is not below the limit *)
Definition splits (n min : Z) : Prop := exists k q, 0 <= k /\ n = q * 2 ^ k /\ q < min.

Lemma splits_half : forall n min, splits n min -> min <= n -> 0 <= n -> n = 2 * (n / 2) /\ splits (n / 2) min.
Proof.
  intros n min (k & q & Hk & -> & Hq) Hn H0.
  destruct (Z.eq_dec k 0) as [->|Hk0]; [rewrite Z.mul_1_r in Hn; Lia.lia|].
  replace k with (Z.succ (k - 1)) at 1 2 3 by Lia.lia. rewrite Z.pow_succ_r by Lia.lia.
  replace (q * (2 * 2 ^ (k - 1))) with (q * 2 ^ (k - 1) * 2) by ring. rewrite Z.div_mul by Lia.lia.
  split; [ring|]. exists (k - 1), q. repeat split; Lia.lia.
Qed.

Section U.
  Context {T : Type} (K : num T).
  Hypotheses (HR : is_ring K) (HE : eqb_ok K).
  Let HR' : ring_theory (zero K) (one K) (add K) (mul K) (sub K) (opp K) eq := HR.
  Add Ring KringU : HR'.
  Local Notation "a +' b" := (add K a b) (at level 50, left associativity).
  Local Notation "a *' b" := (mul K a b) (at level 40, left associativity).

  Variables (fuel : nat) (blas2min : Z) (L : Z -> bool) (A B C : view) (alpha beta : T) (flags P : Z).
  (* the cells of the work buffer *)
  Variable Bf : Z -> Prop.
  Variable m0 : Z -> T.

  Let ta := has flags ARMAS_TRANSA.
  Let tb := has flags ARMAS_TRANSB.

  Hypotheses (OC : mok L C) (OA : mok L A) (OB : mok L B) (DA : disjoint C A) (DB : disjoint C B)
    (BA : forall a, Bf a -> ~ cell A a) (BB : forall a, Bf a -> ~ cell B a) (BC : forall a, Bf a -> ~ cell C a)
    (SA : if ta then rows A = P /\ cols A = rows C else rows A = rows C /\ cols A = P)
    (SB : if tb then rows B = cols C /\ cols B = P else rows B = P /\ cols B = cols C)
    (HP : 0 < P) (Hb2 : blas2min = 0 \/ 2 <= blas2min)
    (Hf1 : rows C < Z.of_nat fuel) (Hf2 : cols C < Z.of_nat fuel).

  Definition oA (m : Z -> T) i k : T := if ta then elt m A k i else elt m A i k.
  Definition oB (m : Z -> T) k j : T := if tb then elt m B j k else elt m B k j.
  Definition fin (m : Z -> T) i j : T := elt m C i j *' beta +' vsum K P (fun k => oA m i k *' oB m k j) *' alpha.

  Definition frame (m m' : Z -> T) : Prop := forall a, ~ cell C a -> ~ Bf a -> m' a = m a.

  Lemma frame_oA : forall m m' i k, frame m m' -> 0 <= i < rows C -> 0 <= k < P -> oA m' i k = oA m i k.
  Proof.
    intros m m' i k F Hi Hk. unfold oA. destruct ta; apply F; intros H;
      first [apply (DA _ H)|apply (BA _ H)]; eexists _, _; (split; [|reflexivity]); split; lia.
  Qed.
  Lemma frame_oB : forall m m' k j, frame m m' -> 0 <= j < cols C -> 0 <= k < P -> oB m' k j = oB m k j.
  Proof.
    intros m m' k j F Hj Hk. unfold oB. destruct tb; apply F; intros H;
      first [apply (DB _ H)|apply (BB _ H)]; eexists _, _; (split; [|reflexivity]); split; lia.
  Qed.

  (* the elements selected by D are final, the others are as they were *)
  Definition inv (D : Z -> Z -> bool) (m : Z -> T) : Prop :=
    (forall i j, pos C i j -> elt m C i j = if D i j then fin m0 i j else elt m0 C i j) /\ frame m0 m.

  Definition fills (p : M T unit) (D : Z -> Z -> bool) : Prop :=
    forall D0 m (Q : unit -> (Z -> T) -> Prop), inv D0 m ->
      (forall i j, pos C i j -> D i j = true -> D0 i j = false) ->
      (forall m', inv (fun i j => D0 i j || D i j) m' -> Q tt m') -> wp p L m Q.

  Lemma inv_ext : forall D D' m, (forall i j, pos C i j -> D i j = D' i j) -> inv D m -> inv D' m.
  Proof. intros D D' m H (V & F). split; auto. intros i j Hp. rewrite <- H by auto. auto. Qed.

  Lemma fills_ext : forall p D D', (forall i j, pos C i j -> D i j = D' i j) -> fills p D -> fills p D'.
  Proof.
    intros p D D' H Hp D0 m Q HI Hd HQ. apply (Hp D0); auto.
    - intros i j Hij. rewrite H by auto. auto.
    - intros m' HI'. apply HQ. eapply inv_ext; [|exact HI']. intros i j Hij. cbn beta. rewrite H by auto. reflexivity.
  Qed.

  Lemma fills_ret : fills (ret tt) (fun _ _ => false).
  Proof.
    intros D0 m Q HI Hd HQ. apply wp_ret, HQ. eapply inv_ext; [|exact HI]. intros i j _. cbn beta. rewrite orb_false_r. reflexivity.
  Qed.

  Lemma fills_seq : forall p1 D1 p2 D2, fills p1 D1 -> fills p2 D2 ->
    (forall i j, pos C i j -> D2 i j = true -> D1 i j = false) -> fills (p1 ;; p2) (fun i j => D1 i j || D2 i j).
  Proof.
    intros p1 D1 p2 D2 H1 H2 H12 D0 m Q HI Hd HQ. wbind. apply (H1 D0); auto.
    { intros i j Hp E. apply Hd; auto. rewrite E. reflexivity. }
    intros m1 HI1. apply (H2 (fun i j => D0 i j || D1 i j)); auto.
    - intros i j Hp E. rewrite (H12 i j Hp E), (Hd i j Hp); [reflexivity|]. rewrite E. apply orb_true_r.
    - intros m' HI'. apply HQ. eapply inv_ext; [|exact HI']. intros i j _. cbn beta. rewrite orb_assoc. reflexivity.
  Qed.

  Lemma fills_step : forall f (Dk : Z -> Z -> Z -> bool) (Acc : Z -> Z -> Z -> bool) hi s, 0 < s -> 0 <= hi ->
    (forall i, 0 <= i < hi -> fills (f i) (Dk i)) ->
    (forall i j, pos C i j -> Acc 0 i j = false) ->
    (forall q i j, 0 <= q < hi -> pos C i j -> Acc (Z.min (q + s) hi) i j = Acc q i j || Dk q i j) ->
    (forall q i j, 0 <= q < hi -> pos C i j -> Dk q i j = true -> Acc q i j = false) ->
    (forall q i j, 0 <= q <= hi -> pos C i j -> Acc q i j = true -> Acc hi i j = true) ->
    fills (for_step 0 hi s f) (Acc hi).
  Proof.
    intros f Dk Acc hi s Hs Hhi Hf H0 HS Hd Hmono D0 m Q HI Hdd HQ.
    apply wp_for_step with (I := fun q m => inv (fun i j => D0 i j || Acc q i j) m); auto.
    - eapply inv_ext; [|exact HI]. intros i j Hp. cbn beta. rewrite H0 by auto. rewrite orb_false_r. reflexivity.
    - intros q m1 Hq HI1. apply (Hf q Hq (fun i j => D0 i j || Acc q i j)); auto.
      + intros i j Hp E. rewrite (Hd q i j Hq Hp E), orb_false_r. apply Hdd; auto.
        apply (Hmono (Z.min (q + s) hi)); auto; [Lia.lia|]. rewrite HS by auto. rewrite E. apply orb_true_r.
      + intros m' HI'. eapply inv_ext; [|exact HI']. intros i j Hp. cbn beta. rewrite HS by auto. rewrite orb_assoc. reflexivity.
  Qed.

  Definition inblk (r c nr nc i j : Z) : bool := (r <=? i) && (i <? r + nr) && (c <=? j) && (j <? c + nc).

  (* a program that computes the block from the operands *)
  Lemma fills_block : forall p r c nr nc, 0 <= r -> 0 <= c -> 0 <= nr -> 0 <= nc -> r + nr <= rows C -> c + nc <= cols C ->
    (forall m (Q : unit -> (Z -> T) -> Prop),
       (forall m', (forall i j, 0 <= i < nr -> 0 <= j < nc -> elt m' C (r + i) (c + j) =
            elt m C (r + i) (c + j) *' beta +' vsum K P (fun k => oA m (r + i) k *' oB m k (c + j)) *' alpha) ->
          (forall a, ~ cell (subm C r c nr nc) a -> ~ Bf a -> m' a = m a) -> Q tt m') -> wp p L m Q) ->
    fills p (inblk r c nr nc).
  Proof.
    intros p r c nr nc H1 H2 H3 H4 H5 H6 Hp D0 m Q (V & F) Hd HQ. apply Hp. intros m' V' F'. apply HQ.
    pose proof OC as (WC & _). split.
    - intros i j Hij. pose proof Hij as (Hi & Hj). destruct (inblk r c nr nc i j) eqn:E; unfold inblk in E.
      + rewrite orb_true_r. replace i with (r + (i - r)) by ring. replace j with (c + (j - c)) by ring.
        rewrite V' by bl. replace (r + (i - r)) with i by ring. replace (c + (j - c)) with j by ring.
        rewrite V by auto. rewrite (Hd i j) by auto. unfold fin. f_equal. f_equal. apply vsum_ext. intros k Hk.
        rewrite (frame_oA m0 m), (frame_oB m0 m) by auto. reflexivity.
      + rewrite orb_false_r, <- V by auto. rewrite !elt_mad. apply F'.
        * intros Hc. apply subm_cell in Hc; auto. bl.
        * intros Hc. apply (BC _ Hc). exists i, j. auto.
    - intros a Ha Hb. rewrite F'; auto. intros Hc. apply Ha. apply (subm_in C r c nr nc a WC H1 H2 H3 H4 H5 H6 Hc).
  Qed.

  (* ---- views of the operands ---- *)
  Lemma updA_ok : forall r n, 0 <= r -> 0 <= n -> r + n <= rows C ->
    mok L (upd_A flags A r n) /\ (forall a, cell (upd_A flags A r n) a -> cell A a).
  Proof.
    intros r n H1 H2 H3. pose proof OA as (WA & _). unfold upd_A. fold ta. destruct ta;
      (split; [apply mok_sub; auto; lia|intros a Ha; eapply subm_in; [..|exact Ha]; auto; lia]).
  Qed.
  Lemma updB_ok : forall c n, 0 <= c -> 0 <= n -> c + n <= cols C ->
    mok L (upd_B flags B c n) /\ (forall a, cell (upd_B flags B c n) a -> cell B a).
  Proof.
    intros r n H1 H2 H3. pose proof OB as (WB & _). unfold upd_B. fold tb. destruct tb;
      (split; [apply mok_sub; auto; lia|intros a Ha; eapply subm_in; [..|exact Ha]; auto; lia]).
  Qed.
  Lemma subC_ok : forall r c nr nc, 0 <= r -> 0 <= c -> 0 <= nr -> 0 <= nc -> r + nr <= rows C -> c + nc <= cols C ->
    mok L (subm C r c nr nc) /\ (forall a, cell (subm C r c nr nc) a -> cell C a).
  Proof. intros. pose proof OC as (WC & _). split; [apply mok_sub; auto|intros a; apply subm_in; auto]. Qed.

  (* ---- the rows and columns of the unblocked version ---- *)
  Lemma row_fills : forall r c nc, 0 <= r < rows C -> 0 <= c -> 0 < nc -> c + nc <= cols C ->
    fills (armas_mvmult_unsafe K fuel blas2min beta (subm C r c 1 nc) alpha (upd_B flags B c nc) (upd_A flags A r 1)
             (if tb then 0 else ARMAS_TRANS)) (inblk r c 1 nc).
  Proof.
    intros r c nc H1 H2 H3 H4. apply fills_block; try lia. intros m Q HQ.
    destruct (subC_ok r c 1 nc) as (O1 & I1); try lia. destruct (updA_ok r 1) as (O2 & I2); try lia.
    destruct (updB_ok c nc) as (O3 & I3); try lia.
    apply (mvmult_unsafe_wp K HR HE); auto.
    - destruct tb; reflexivity.
    - change (vlen (subm C r c 1 nc)) with (1 * nc). lia.
    - destruct O1. split; [left; reflexivity|split; auto].
    - destruct O2. split; [|split; auto]. unfold upd_A. fold ta. destruct ta; [right|left]; reflexivity.
    - intros a Ha Hb. apply (DB a); auto.
    - intros a Ha Hb. apply (DA a); auto.
    - unfold upd_B. fold tb. destruct tb; cbn [rows armas_submatrix_unsafe armas_make]; lia.
    - unfold upd_B. fold tb. destruct tb; cbn [cols armas_submatrix_unsafe armas_make]; lia.
    - unfold gsize, upd_A, upd_B, vlen. fold ta tb. destruct ta, tb; cbn [rows cols armas_submatrix_unsafe armas_make has Z.land negb];
        change (has 0 ARMAS_TRANS) with false; change (has ARMAS_TRANS ARMAS_TRANS) with true; cbn iota; lia.
    - intros m' V O. apply HQ.
      + intros i j Hi Hj. replace (r + i) with r by lia.
        rewrite <- !(sub_row_velt _ C r c nc j) by lia. rewrite V by (change (vlen (subm C r c 1 nc)) with (1 * nc); lia).
        replace (vlen (upd_A flags A r 1)) with P
          by (unfold upd_A, vlen; fold ta; destruct ta; cbn [rows cols armas_submatrix_unsafe armas_make]; lia).
        rewrite (vsum_ext K P _ (fun k => oA m r k *' oB m k (c + j))); [ring|].
        intros k Hk. unfold opm, oA, oB, upd_A, upd_B. fold ta tb.
        destruct tb; [change (has 0 ARMAS_TRANS) with false|change (has ARMAS_TRANS ARMAS_TRANS) with true]; cbn iota;
          rewrite subm_elt, Z.add_0_l; destruct ta; rewrite ?sub_col_velt, ?sub_row_velt by lia; rewrite Z.add_0_l; ring.
      + intros a Ha _. apply O. exact Ha.
  Qed.

  Lemma col_fills : forall r c nr, 0 <= c < cols C -> 0 <= r -> 0 < nr -> r + nr <= rows C ->
    fills (armas_mvmult_unsafe K fuel blas2min beta (subm C r c nr 1) alpha (upd_A flags A r nr) (upd_B flags B c 1)
             (if ta then ARMAS_TRANS else 0)) (inblk r c nr 1).
  Proof.
    intros r c nr H1 H2 H3 H4. apply fills_block; try lia. intros m Q HQ.
    destruct (subC_ok r c nr 1) as (O1 & I1); try lia. destruct (updA_ok r nr) as (O2 & I2); try lia.
    destruct (updB_ok c 1) as (O3 & I3); try lia.
    apply (mvmult_unsafe_wp K HR HE); auto.
    - destruct ta; reflexivity.
    - change (vlen (subm C r c nr 1)) with (nr * 1). lia.
    - destruct O1. split; [right; reflexivity|split; auto].
    - destruct O3. split; [|split; auto]. unfold upd_B. fold tb. destruct tb; [left|right]; reflexivity.
    - intros a Ha Hb. apply (DA a); auto.
    - intros a Ha Hb. apply (DB a); auto.
    - unfold upd_A. fold ta. destruct ta; cbn [rows armas_submatrix_unsafe armas_make]; lia.
    - unfold upd_A. fold ta. destruct ta; cbn [cols armas_submatrix_unsafe armas_make]; lia.
    - unfold gsize, upd_A, upd_B, vlen. fold ta tb. destruct ta, tb; cbn [rows cols armas_submatrix_unsafe armas_make has Z.land negb];
        change (has 0 ARMAS_TRANS) with false; change (has ARMAS_TRANS ARMAS_TRANS) with true; cbn iota; lia.
    - intros m' V O. apply HQ.
      + intros i j Hi Hj. replace (c + j) with c by lia.
        rewrite <- !(sub_col_velt _ C r c nr i) by lia. rewrite V by (change (vlen (subm C r c nr 1)) with (nr * 1); lia).
        replace (vlen (upd_B flags B c 1)) with P
          by (unfold upd_B, vlen; fold tb; destruct tb; cbn [rows cols armas_submatrix_unsafe armas_make]; lia).
        rewrite (vsum_ext K P _ (fun k => oA m (r + i) k *' oB m k c)); [ring|].
        intros k Hk. unfold opm, oA, oB, upd_A, upd_B. fold ta tb.
        destruct ta; [change (has ARMAS_TRANS ARMAS_TRANS) with true|change (has 0 ARMAS_TRANS) with false]; cbn iota;
          rewrite subm_elt, Z.add_0_l; destruct tb; rewrite ?sub_col_velt, ?sub_row_velt by lia; rewrite Z.add_0_l; ring.
      + intros a Ha _. apply O. exact Ha.
  Qed.

  (* the triangle (trapezoid) of the nr times nc block whose corner is (o,o) *)
  Definition uptri (o nr nc i j : Z) : bool := (o <=? i) && (i <? o + nr) && (i <=? j) && (j <? o + nc).
  Definition lotri (o nr nc i j : Z) : bool := (o <=? j) && (j <? o + nc) && (j <=? i) && (i <? o + nr).
  Definition thetri (o nr nc i j : Z) : bool := if has flags ARMAS_UPPER then uptri o nr nc i j else lotri o nr nc i j.

  Lemma fills_for1 : forall f (Dk : Z -> Z -> Z -> bool) (Acc : Z -> Z -> Z -> bool) hi, 0 <= hi ->
    (forall i, 0 <= i < hi -> fills (f i) (Dk i)) ->
    (forall i j, pos C i j -> Acc 0 i j = false) ->
    (forall q i j, 0 <= q < hi -> pos C i j -> Acc (q + 1) i j = Acc q i j || Dk q i j) ->
    (forall q i j, 0 <= q < hi -> pos C i j -> Dk q i j = true -> Acc q i j = false) ->
    (forall q i j, 0 <= q <= hi -> pos C i j -> Acc q i j = true -> Acc hi i j = true) ->
    fills (for_up 0 hi 1 f) (Acc hi).
  Proof.
    intros f Dk Acc hi Hhi Hf H0 HS Hd Hmono D0 m Q HI Hdd HQ.
    apply wp_for1 with (I := fun q m => inv (fun i j => D0 i j || Acc q i j) m).
    - eapply inv_ext; [|exact HI]. intros i j Hp. cbn beta. rewrite H0 by auto. rewrite orb_false_r. reflexivity.
    - intros q m1 Hq HI1. apply (Hf q Hq (fun i j => D0 i j || Acc q i j)); auto.
      + intros i j Hp E. rewrite (Hd q i j Hq Hp E), orb_false_r. apply Hdd; auto.
        apply (Hmono (q + 1)); auto; [bl|]. rewrite HS by auto. rewrite E. apply orb_true_r.
      + intros m' HI'. eapply inv_ext; [|exact HI']. intros i j Hp. cbn beta. rewrite HS by auto. rewrite orb_assoc. reflexivity.
    - replace (Z.max 0 hi) with hi by bl. exact HQ.
  Qed.

  Lemma naive_fills : forall o nr nc, 0 <= o -> 0 <= nr -> 0 <= nc -> o + nr <= rows C -> o + nc <= cols C ->
    fills (update_trm_naive K fuel blas2min beta (subm C o o nr nc) alpha (upd_A flags A o nr) (upd_B flags B o nc) flags)
      (thetri o nr nc).
  Proof.
    intros o nr nc H1 H2 H3 H4 H5. unfold update_trm_naive, thetri. fold ta tb.
    change (rows (subm C o o nr nc)) with nr. change (cols (subm C o o nr nc)) with nc.
    set (n := Z.min nr nc). assert (Hn : 0 <= n /\ n <= nr /\ n <= nc /\ (n = nr \/ n = nc)) by (unfold n; bl). clearbody n.
    destruct (has flags ARMAS_UPPER); cbv zeta.
    - apply fills_ext with (D := (fun q i j => uptri o q nc i j) n).
      { intros i j _. unfold uptri. bl. }
      apply fills_for1 with (Dk := fun i => inblk (o + i) (o + i) 1 (nc - i)) (Acc := fun q i j => uptri o q nc i j); try (intros; unfold uptri, inblk in *; bl).
      intros i Hi. rewrite sub_sub, updB_from. unfold ta. rewrite updA_one. apply row_fills; lia.
    - apply fills_ext with (D := (fun q i j => lotri o nr q i j) n).
      { intros i j _. unfold lotri. bl. }
      apply fills_for1 with (Dk := fun i => inblk (o + i) (o + i) (nr - i) 1) (Acc := fun q i j => lotri o nr q i j); try (intros; unfold lotri, inblk in *; bl).
      intros i Hi. rewrite sub_sub, updA_from. unfold tb. rewrite updB_one. apply col_fills; lia.
  Qed.

  (* ---- with the kernel ---- *)
  Section Rec.
    Variable ch : cache.
    Let Av := mkview (Acpy ch) (ab_step ch) (KB ch) (MB ch).
    Let Bv := mkview (Bcpy ch) (ab_step ch) (KB ch) (NB ch).
    Hypotheses (OK : blocks_ok L ch) (Hrb : 0 < rb ch) (HAv : forall a, cell Av a -> Bf a) (HBv : forall a, cell Bv a -> Bf a)
      (Fa : has flags absflags = false) (FA : has flags transA = ta) (FB : has flags transB = tb).

    Lemma kernel_fills : forall r c nr nc, 0 <= r -> 0 <= c -> 0 <= nr -> 0 <= nc -> r + nr <= rows C -> c + nc <= cols C ->
      fills (armas_mult_kernel K beta (subm C r c nr nc) alpha (upd_A flags A r nr) (upd_B flags B c nc) flags ch)
        (inblk r c nr nc).
    Proof.
      intros r c nr nc H1 H2 H3 H4 H5 H6. apply fills_block; auto. intros m Q HQ.
      destruct (subC_ok r c nr nc) as (O1 & I1); try lia. destruct (updA_ok r nr) as (O2 & I2); try lia.
      destruct (updB_ok c nc) as (O3 & I3); try lia.
      apply (kernel_wp K HR L _ _ _ alpha flags P ch); auto.
      - intros a Ha Hb. apply (DA a); auto.
      - intros a Ha Hb. apply (DB a); auto.
      - intros a Ha Hb. apply (BA a); auto.
      - intros a Ha Hb. apply (BA a); auto.
      - intros a Ha Hb. apply (BB a); auto.
      - intros a Ha Hb. apply (BB a); auto.
      - intros a Ha Hb. apply (BC a); auto.
      - intros a Ha Hb. apply (BC a); auto.
      - unfold shapeA, upd_A. rewrite FA. fold ta. destruct ta; cbn [rows cols armas_submatrix_unsafe armas_make]; lia.
      - unfold shapeB, upd_B. rewrite FB. fold tb. destruct tb; cbn [rows cols armas_submatrix_unsafe armas_make]; lia.
      - intros m' V O. apply HQ.
        + intros i j Hi Hj. rewrite <- !(subm_elt _ C r c nr nc i j). rewrite V by (split; cbn; lia).
          f_equal. f_equal. unfold opdot. apply vsum_ext. intros k Hk.
          unfold opA, opB, absf, oA, oB, upd_A, upd_B. rewrite Fa, FA, FB. fold ta tb.
          destruct ta, tb; rewrite !subm_elt, ?Z.add_0_l; reflexivity.
        + intros a Ha Hb. apply O; auto.
    Qed.

    Lemma upper_rec_fills : forall min, 1 <= min -> has flags ARMAS_UPPER = true -> forall d o nr nc,
      0 <= o -> 0 <= nr -> 0 <= nc -> o + nr <= rows C -> o + nc <= cols C -> splits (Z.min nr nc) min ->
      Z.min nr nc < Z.of_nat d ->
      fills (update_upper_recursive K fuel blas2min d beta (subm C o o nr nc) alpha (upd_A flags A o nr) (upd_B flags B o nc) flags min ch)
        (uptri o nr nc).
    Proof.
      intros min Hmin Hup d. induction d as [|d IH]; intros o nr nc H1 H2 H3 H4 H5 Hs Hd; [exfalso; bl|].
      assert (NV : forall o nr nc, 0 <= o -> 0 <= nr -> 0 <= nc -> o + nr <= rows C -> o + nc <= cols C ->
        fills (update_trm_naive K fuel blas2min beta (subm C o o nr nc) alpha (upd_A flags A o nr) (upd_B flags B o nc) flags) (uptri o nr nc)).
      { intros. eapply fills_ext; [|apply naive_fills; auto]. intros i j _. unfold thetri. rewrite Hup. reflexivity. }
      cbn [update_upper_recursive].
      change (rows (subm C o o nr nc)) with nr. change (cols (subm C o o nr nc)) with nc. cbv zeta.
      set (n := Z.min nr nc) in *. assert (Hn : 0 <= n /\ n <= nr /\ n <= nc /\ (n = nr \/ n = nc)) by (unfold n; bl).
      clearbody n. destruct (n <? min) eqn:En; [apply NV; auto|].
      destruct (splits_half n min Hs) as (Eh & Hs'); [lia|lia|].
      set (h := n / 2) in *. clearbody h. assert (Hh : 0 < h) by lia. clear Hs.
      set (sb := fun C A B => if h <? min then update_trm_naive K fuel blas2min beta C alpha A B flags
                              else update_upper_recursive K fuel blas2min d beta C alpha A B flags min ch).
      assert (SB' : forall q len, 0 <= q -> (len = h) -> q + len <= n ->
        fills (sb (subm (subm C o o nr nc) q q len len) (upd_A flags (upd_A flags A o nr) q len) (upd_B flags (upd_B flags B o nc) q len))
          (uptri (o + q) len len)).
      { intros q len Hq -> Hl. rewrite sub_sub, updA_updA, updB_updB. unfold sb. destruct (h <? min); [apply NV; lia|].
        apply IH; try lia; rewrite Z.min_id; exact Hs'. }
      change (fills (sb (subm (subm C o o nr nc) 0 0 h h) (upd_A flags (upd_A flags A o nr) 0 h) (upd_B flags (upd_B flags B o nc) 0 h) ;;
        armas_mult_kernel K beta (subm (subm C o o nr nc) 0 h (n - h) (n - h)) alpha (upd_A flags (upd_A flags A o nr) 0 h) (upd_B flags (upd_B flags B o nc) h (n - h)) flags ch ;;
        sb (subm (subm C o o nr nc) h h (n - h) (n - h)) (upd_A flags (upd_A flags A o nr) h (n - h)) (upd_B flags (upd_B flags B o nc) h (n - h)) ;;
        (if nc <=? nr then ret tt
         else armas_mult_kernel K beta (subm (subm C o o nr nc) 0 n nr (nc - n)) alpha
                (subm (upd_A flags A o nr) 0 0 (rows (upd_A flags A o nr)) (cols (upd_A flags A o nr)))
                (upd_B_from flags (upd_B flags B o nc) n) flags ch)) (uptri o nr nc)).
      eapply fills_ext; [|eapply fills_seq;
        [apply SB'; lia|eapply fills_seq; [|eapply (fills_seq _ _ _ (inblk o (o + n) nr (nc - n))); [apply SB'; lia| |]|]|]].
      3:{ destruct (nc <=? nr) eqn:Enc.
          - eapply fills_ext; [|apply fills_ret]. intros i j _. unfold inblk. bl.
          - rewrite sub_sub, sub_id, updB_from. replace (o + 0) with o by ring. apply kernel_fills; lia. }
      2:{ rewrite sub_sub, updA_updA, updB_updB. replace (n - h) with h by lia. apply kernel_fills; lia. }
      - intros i j _. unfold uptri, inblk. bl.
      - intros i j _. unfold uptri, inblk. bl.
      - intros i j _. unfold uptri, inblk. bl.
      - intros i j _. unfold uptri, inblk. bl.
    Qed.

    Lemma lower_rec_fills : forall min, 1 <= min -> has flags ARMAS_UPPER = false -> forall d o nr nc,
      0 <= o -> 0 <= nr -> 0 <= nc -> o + nr <= rows C -> o + nc <= cols C ->
      Z.min nr nc < Z.of_nat d ->
      fills (update_lower_recursive K fuel blas2min d beta (subm C o o nr nc) alpha (upd_A flags A o nr) (upd_B flags B o nc) flags min ch)
        (lotri o nr nc).
    Proof.
      intros min Hmin Hup d. induction d as [|d IH]; intros o nr nc H1 H2 H3 H4 H5 Hd; [exfalso; bl|].
      assert (NV : forall o nr nc, 0 <= o -> 0 <= nr -> 0 <= nc -> o + nr <= rows C -> o + nc <= cols C ->
        fills (update_trm_naive K fuel blas2min beta (subm C o o nr nc) alpha (upd_A flags A o nr) (upd_B flags B o nc) flags) (lotri o nr nc)).
      { intros. eapply fills_ext; [|apply naive_fills; auto]. intros i j _. unfold thetri. rewrite Hup. reflexivity. }
      cbn [update_lower_recursive].
      change (rows (subm C o o nr nc)) with nr. change (cols (subm C o o nr nc)) with nc. cbv zeta.
      set (n := Z.min nr nc) in *. assert (Hn : 0 <= n /\ n <= nr /\ n <= nc /\ (n = nr \/ n = nc)) by (unfold n; bl).
      clearbody n. destruct (n <? min) eqn:En; [apply NV; auto|].
      set (h := n / 2) in *. assert (Hh : 0 <= h /\ h <= n - h /\ n - h <= h + 1) by (unfold h; pose proof (Z_div_mod_eq_full n 2); pose proof (Z.mod_pos_bound n 2 ltac:(bl)); bl). clearbody h.
      set (sb := fun C A B => if h <? min then update_trm_naive K fuel blas2min beta C alpha A B flags
                              else update_lower_recursive K fuel blas2min d beta C alpha A B flags min ch).
      assert (SB' : forall q len, 0 <= q -> 0 <= len <= n - h -> q + len <= n ->
        fills (sb (subm (subm C o o nr nc) q q len len) (upd_A flags (upd_A flags A o nr) q len) (upd_B flags (upd_B flags B o nc) q len))
          (lotri (o + q) len len)).
      { intros q len Hq Hlen Hl. rewrite sub_sub, updA_updA, updB_updB. unfold sb. destruct (h <? min) eqn:Eh; [apply NV; lia|].
        apply IH; lia. }
      change (fills (sb (subm (subm C o o nr nc) 0 0 h h) (upd_A flags (upd_A flags A o nr) 0 h) (upd_B flags (upd_B flags B o nc) 0 h) ;;
        armas_mult_kernel K beta (subm (subm C o o nr nc) h 0 (n - h) h) alpha (upd_A flags (upd_A flags A o nr) h (n - h)) (upd_B flags (upd_B flags B o nc) 0 h) flags ch ;;
        sb (subm (subm C o o nr nc) h h (n - h) (n - h)) (upd_A flags (upd_A flags A o nr) h (n - h)) (upd_B flags (upd_B flags B o nc) h (n - h)) ;;
        (if nr <=? nc then ret tt
         else armas_mult_kernel K beta (subm (subm C o o nr nc) n 0 (nr - n) nc) alpha
                (upd_A_from flags (upd_A flags A o nr) n)
                (subm (upd_B flags B o nc) 0 0 (rows (upd_B flags B o nc)) (cols (upd_B flags B o nc))) flags ch)) (lotri o nr nc)).
      eapply fills_ext; [|eapply fills_seq;
        [apply SB'; lia|eapply fills_seq; [|eapply (fills_seq _ _ _ (inblk (o + n) o (nr - n) nc)); [apply SB'; lia| |]|]|]].
      3:{ destruct (nr <=? nc) eqn:Enc.
          - eapply fills_ext; [|apply fills_ret]. intros i j _. unfold inblk. bl.
          - rewrite sub_sub, sub_id, updA_from. replace (o + 0) with o by ring. apply kernel_fills; lia. }
      2:{ rewrite sub_sub, updA_updA, updB_updB. apply kernel_fills; lia. }
      - intros i j _. unfold lotri, inblk. bl.
      - intros i j _. unfold lotri, inblk. bl.
      - intros i j _. unfold lotri, inblk. bl.
      - intros i j _. unfold lotri, inblk. bl.
    Qed.

    Lemma blk_fills : forall min, 1 <= min -> (has flags ARMAS_UPPER = true -> NB ch < min) ->
      fills (update_trm_blk K fuel blas2min beta C alpha A B flags min ch) (thetri 0 (rows C) (cols C)).
    Proof.
      intros min Hmin Hsp. pose proof OK as (_ & HNB & _). pose proof OC as ((C1 & C2 & C3) & _).
      unfold update_trm_blk, thetri.
      set (n := Z.min (rows C) (cols C)). assert (Hn : 0 <= n /\ n <= rows C /\ n <= cols C /\ (n = rows C \/ n = cols C)) by (unfold n; bl).
      clearbody n. destruct (has flags ARMAS_UPPER) eqn:Eup; cbv zeta.
      - specialize (Hsp eq_refl). apply fills_ext with (D := uptri 0 n (cols C)).
        { intros i j (Hi & Hj). unfold uptri. bl. }
        apply (fills_step _ (fun q i j => uptri q (if n - q <? NB ch then n - q else NB ch) (if n - q <? NB ch then n - q else NB ch) i j ||
                   inblk q (q + if n - q <? NB ch then n - q else NB ch) (if n - q <? NB ch then n - q else NB ch)
                     (cols C - q - if n - q <? NB ch then n - q else NB ch) i j) (fun q i j => uptri 0 q (cols C) i j)); auto; try lia.
        + intros q Hq. set (nI := if n - q <? NB ch then n - q else NB ch).
          assert (HI : 0 < nI <= NB ch /\ q + nI <= n) by (unfold nI; destruct (n - q <? NB ch) eqn:E; lia). clearbody nI.
          apply fills_seq.
          * apply upper_rec_fills; try lia; auto. exists 0, nI. rewrite Z.min_id. rewrite Z.pow_0_r. lia.
          * replace (if has flags ARMAS_TRANSB then subm B (q + nI) 0 (rows B - q - nI) (cols B)
                     else subm B 0 (q + nI) (rows B) (cols B - q - nI)) with (upd_B flags B (q + nI) (cols C - q - nI)).
            { apply kernel_fills; lia. }
            unfold upd_B. fold tb. destruct tb; destruct SB as (-> & ->); reflexivity.
          * intros i j _. unfold uptri, inblk. bl.
        + intros i j (Hi & Hj). unfold uptri. bl.
        + intros q i j Hq (Hi & Hj). set (nI := if n - q <? NB ch then n - q else NB ch).
          assert (HI : 0 < nI /\ q + nI = Z.min (q + NB ch) n) by (unfold nI; destruct (n - q <? NB ch) eqn:E; bl). clearbody nI.
          destruct HI as (HI & <-). unfold uptri, inblk. bl.
        + intros q i j Hq (Hi & Hj). set (nI := if n - q <? NB ch then n - q else NB ch). clearbody nI.
          unfold uptri, inblk. bl.
        + intros q i j Hq (Hi & Hj). unfold uptri. bl.
      - apply fills_ext with (D := lotri 0 (rows C) n).
        { intros i j (Hi & Hj). unfold lotri. bl. }
        apply (fills_step _ (fun q i j => lotri q (if n - q <? NB ch then n - q else NB ch) (if n - q <? NB ch then n - q else NB ch) i j ||
                   inblk (q + if n - q <? NB ch then n - q else NB ch) q (rows C - q - if n - q <? NB ch then n - q else NB ch)
                     (if n - q <? NB ch then n - q else NB ch) i j) (fun q i j => lotri 0 (rows C) q i j)); auto; try lia.
        + intros q Hq. set (nI := if n - q <? NB ch then n - q else NB ch).
          assert (HI : 0 < nI <= NB ch /\ q + nI <= n) by (unfold nI; destruct (n - q <? NB ch) eqn:E; lia). clearbody nI.
          apply fills_seq.
          * apply lower_rec_fills; try lia; auto.
          * replace (if has flags ARMAS_TRANSA then subm A 0 (q + nI) (rows A) (cols A - q - nI)
                     else subm A (q + nI) 0 (rows A - q - nI) (cols A)) with (upd_A flags A (q + nI) (rows C - q - nI)).
            { apply kernel_fills; lia. }
            unfold upd_A. fold ta. destruct ta; destruct SA as (-> & ->); reflexivity.
          * intros i j _. unfold lotri, inblk. bl.
        + intros i j (Hi & Hj). unfold lotri. bl.
        + intros q i j Hq (Hi & Hj). set (nI := if n - q <? NB ch then n - q else NB ch).
          assert (HI : 0 < nI /\ q + nI = Z.min (q + NB ch) n) by (unfold nI; destruct (n - q <? NB ch) eqn:E; bl). clearbody nI.
          destruct HI as (HI & <-). unfold lotri, inblk. bl.
        + intros q i j Hq (Hi & Hj). set (nI := if n - q <? NB ch then n - q else NB ch). clearbody nI.
          unfold lotri, inblk. bl.
        + intros q i j Hq (Hi & Hj). unfold lotri. bl.
    Qed.

    Lemma rec_fills : forall min, 1 <= min -> (has flags ARMAS_UPPER = true -> splits (Z.min (rows C) (cols C)) min) ->
      fills (if has flags ARMAS_UPPER then update_upper_recursive K fuel blas2min fuel beta C alpha A B flags min ch
             else update_lower_recursive K fuel blas2min fuel beta C alpha A B flags min ch) (thetri 0 (rows C) (cols C)).
    Proof.
      intros min Hmin Hsp. pose proof OC as ((C1 & C2 & C3) & _).
      assert (EA : upd_A flags A 0 (rows C) = A)
        by (unfold upd_A; fold ta; destruct ta; destruct SA as (E1 & E2); rewrite <- ?E1, <- ?E2; apply sub_id).
      assert (EB : upd_B flags B 0 (cols C) = B)
        by (unfold upd_B; fold tb; destruct tb; destruct SB as (E1 & E2); rewrite <- ?E1, <- ?E2; apply sub_id).
      destruct (has flags ARMAS_UPPER) eqn:Eup.
      - pose proof (upper_rec_fills min Hmin Eup fuel 0 (rows C) (cols C)) as X. rewrite sub_id, EA, EB in X.
        eapply fills_ext; [|apply X; auto; try lia; bl]. intros i j _. unfold thetri. rewrite Eup. reflexivity.
      - pose proof (lower_rec_fills min Hmin Eup fuel 0 (rows C) (cols C)) as X. rewrite sub_id, EA, EB in X.
        eapply fills_ext; [|apply X; auto; try lia; bl]. intros i j _. unfold thetri. rewrite Eup. reflexivity.
    Qed.
  End Rec.

  Lemma naive_all : fills (update_trm_naive K fuel blas2min beta C alpha A B flags) (thetri 0 (rows C) (cols C)).
  Proof.
    pose proof OC as ((C1 & C2 & C3) & _).
    assert (EA : upd_A flags A 0 (rows C) = A)
      by (unfold upd_A; fold ta; destruct ta; destruct SA as (E1 & E2); rewrite <- ?E1, <- ?E2; apply sub_id).
    assert (EB : upd_B flags B 0 (cols C) = B)
      by (unfold upd_B; fold tb; destruct tb; destruct SB as (E1 & E2); rewrite <- ?E1, <- ?E2; apply sub_id).
    pose proof (naive_fills 0 (rows C) (cols C)) as X. rewrite sub_id, EA, EB in X. apply X; lia.
  Qed.

  (* the whole update from a program that fills the triangle *)
  Lemma fills_wp : forall p (Q : unit -> (Z -> T) -> Prop), fills p (thetri 0 (rows C) (cols C)) ->
    (forall m', (forall i j, pos C i j -> elt m' C i j =
         if (if has flags ARMAS_UPPER then i <=? j else j <=? i) then fin m0 i j else elt m0 C i j) ->
       frame m0 m' -> Q tt m') -> wp p L m0 Q.
  Proof.
    intros p Q Hp HQ. apply (Hp (fun _ _ => false)).
    - split; [reflexivity|]. intros a _ _. reflexivity.
    - reflexivity.
    - intros m' (V & F). apply HQ; auto. intros i j Hij. rewrite V by auto. cbn [orb]. destruct Hij as (Hi & Hj).
      replace (thetri 0 (rows C) (cols C) i j) with (if has flags ARMAS_UPPER then i <=? j else j <=? i); [reflexivity|].
      unfold thetri, uptri, lotri. destruct (has flags ARMAS_UPPER); bl.
  Qed.
End U.
