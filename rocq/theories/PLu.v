(* PLu.v: lemmas on the model of the LU factorization without pivoting. *)
From Coq Require Import ZArith Lia Bool ZifyBool Ring.
From Verif Require Import Mem MView SpecView PView PSub Hoare MFlags MBase MCopy PUpd PCopy
  MNum SpecNum MBlas1 PSum PBlas1 MElem PElem SpecPivot MPivot PPivot MBlas2 PMvec PBlas2
  PFrame SpecTrm MTrm PTrm MGemm PGemm PMatcpy PMult MTrsm PTrsm MLap MLu PLap.
Local Open Scope Z_scope.
Local Open Scope prog_scope.

Ltac lia := nobool; zlia.
Notation subm := armas_submatrix_unsafe.

Section N.
  Context {T : Type} (K : num T).
  Hypotheses (HF : is_field K) (HE : eqb_ok K).
  Let HR : is_ring K := Field_theory.F_R HF.
  Let HR' : ring_theory (zero K) (one K) (add K) (mul K) (sub K) (opp K) eq := HR.
  Add Ring KringU : HR'.
  Local Notation "a +' b" := (add K a b) (at level 50, left associativity).
  Local Notation "a -' b" := (sub K a b) (at level 50, left associativity).
  Local Notation "a *' b" := (mul K a b) (at level 40, left associativity).

  Lemma mul_inv : forall a d, d <> zero K -> (a *' d) *' div K (one K) d = a.
  Proof. intros a d Hd. transitivity (a *' (d *' div K (one K) d)); [ring|]. rewrite (div_mul K HR HF) by auto. ring. Qed.

  Lemma cancel_r : forall a b d, d <> zero K -> a *' d = b *' d -> a = b.
  Proof. intros a b d Hd H. rewrite <- (mul_inv a d Hd), H. apply mul_inv; auto. Qed.

  Lemma cancel_add : forall a b c, a +' b = a +' c -> b = c.
  Proof. intros a b c H. transitivity ((a +' b) -' a); [ring|]. rewrite H. ring. Qed.

  (* a unit lower matrix l and an upper matrix u with nonzero pivots *)
  Definition triangles (r c : Z) (l u : Z -> Z -> T) : Prop :=
    (forall i q, 0 <= i -> i < q -> l i q = zero K) /\ (forall i, 0 <= i < Z.min r c -> l i i = one K) /\
    (forall q j, 0 <= j -> j < q -> u q j = zero K) /\ (forall q, 0 <= q < Z.min (r - 1) c -> u q q <> zero K).

  Definition stored (l u : Z -> Z -> T) (i j : Z) : T := if j <? i then l i j else u i j.

  (* the part of the product that the columns of l from k on contribute *)
  Definition rest (N : Z) (l u : Z -> Z -> T) (k i j : Z) : T := vsum K (N - k) (fun q => l i (k + q) *' u (k + q) j).

  Lemma rest_S : forall N l u k i j, 0 <= k < N -> rest N l u k i j = l i k *' u k j +' rest N l u (k + 1) i j.
  Proof.
    intros N l u k i j Hk. unfold rest. replace (N - k) with (1 + (N - (k + 1))) by lia. rewrite (vsum_split K HR) by lia.
    rewrite (vsum_1 K HR), Z.add_0_r. f_equal. apply vsum_ext. intros q Hq. rewrite Z.add_assoc. reflexivity.
  Qed.

  Lemma rest_split : forall N l u k n i j, 0 <= k -> 0 <= n -> k + n <= N ->
    rest N l u k i j = vsum K n (fun q => l i (k + q) *' u (k + q) j) +' rest N l u (k + n) i j.
  Proof.
    intros N l u k n i j Hk Hn HN. unfold rest. replace (N - k) with (n + (N - (k + n))) at 1 by lia. rewrite (vsum_split K HR) by lia.
    f_equal. apply vsum_ext. intros q Hq. rewrite Z.add_assoc. reflexivity.
  Qed.

  Lemma rest_zero : forall r c l u N k i j, triangles r c l u -> 0 <= i -> 0 <= j -> i < k \/ j < k -> rest N l u k i j = zero K.
  Proof.
    intros r c l u N k i j (T1 & T2 & T3 & T4) Hi Hj H. unfold rest. apply (vsum_zero K HR). intros q Hq. destruct H as [H|H].
    - rewrite T1 by lia. ring.
    - rewrite T3 by lia. ring.
  Qed.

  Section A.
    Variables (E : lenv) (L : Z -> bool) (cb : cbuf).

    Definition linv A l u k (m : Z -> T) : Prop := forall i j, pos A i j ->
      elt m A i j = if (i <? k) || (j <? k) then stored l u i j else rest (Z.min (rows A) (cols A)) l u k i j.

    Lemma unblk_nopiv_wp : forall A l u m, env_ok E L cb A -> mok L A -> triangles (rows A) (cols A) l u ->
      (forall i j, pos A i j -> elt m A i j = vsum K (Z.min (rows A) (cols A)) (fun q => l i q *' u q j)) ->
      wp (unblk_lufactor_nopiv K E A) L m (fun r m' => r = 0 /\
        (forall i j, pos A i j -> elt m' A i j = stored l u i j) /\ outb cb (e_p E) A m m').
    Proof.
      intros A l u m EO OKA HT H0. pose proof HT as (T1 & T2 & T3 & T4). pose proof OKA as ((Hr & Hc & _) & _). pose proof EO as (_ & _ & F1 & F2 & _).
      set (N := Z.min (rows A) (cols A)).
      unfold unblk_lufactor_nopiv. wbind. rewrite part_at.
      apply (wp_down L A 1 more (N - 1) _ (fun k _ m' => linv A l u k m' /\ outb cb (e_p E) A m m')); try lia.
      - intros q Hq. apply more_iff. exact Hq.
      - split; [|apply outb_refl]. intros i j Hp. replace (i <? 0) with false by (destruct Hp; zlia).
        replace (j <? 0) with false by (destruct Hp; zlia). cbn [orb]. rewrite H0 by auto. unfold rest. rewrite Z.sub_0_r. reflexivity.
      - intros k [] m1 Hk (HI & HO). replace (Z.min 1 (Z.min (rows A - k) (cols A - k))) with 1 by (unfold N in Hk; Lia.lia). cbv zeta.
        cbn [b3at A11 A21 A22 A12]. assert (Hkr : 0 <= k < rows A /\ k < cols A) by (unfold N in Hk; Lia.lia).
        assert (Pk : forall i, k <= i < rows A -> pos A i k) by (intros; split; lia).
        assert (Pr : forall j, k <= j < cols A -> pos A k j) by (intros; split; lia).
        assert (V1 : forall j, k <= j < cols A -> elt m1 A k j = u k j).
        { intros j Hj. rewrite HI by auto. replace (k <? k) with false by zlia. replace (j <? k) with false by zlia. cbn [orb].
          rewrite rest_S by (unfold N in Hk; Lia.lia). rewrite T2 by Lia.lia. rewrite (rest_zero (rows A) (cols A)) by (auto; lia). ring. }
        assert (V2 : forall i, k < i < rows A -> elt m1 A i k = l i k *' u k k).
        { intros i Hi. rewrite HI by (apply Pk; lia). replace (i <? k) with false by zlia. replace (k <? k) with false by zlia. cbn [orb].
          rewrite rest_S by (unfold N in Hk; Lia.lia). rewrite (rest_zero (rows A) (cols A)) by (auto; lia). ring. }
        wbind. apply (get_blk_wp K E L A); auto; [repeat split; lia|]. rewrite V1 by lia.
        wbind. apply (scale_col_wp K E L cb A); auto; [repeat split; lia|]. intros m2 S2 B2.
        wbind. apply (mvupdate_blk_wp K HF E L cb A); auto; try (repeat split; lia); try lia. intros m3 S3 B3.
        apply wp_ret. split.
        + intros i j Hp. pose proof Hp as (Hi & Hj).
          assert (C : (i < k \/ j < k) \/ (i = k /\ k <= j) \/ (k < i /\ j = k) \/ (k < i /\ k < j)) by lia.
          destruct C as [C|[(C1 & C2)|[(C1 & C2)|(C1 & C2)]]].
          * replace ((i <? k + 1) || (j <? k + 1)) with true by zlia.
            rewrite (bo_out E cb A _ _ _ _ _ _ _ _ B3) by (auto; lia). rewrite (bo_out E cb A _ _ _ _ _ _ _ _ B2) by (auto; lia).
            rewrite HI by auto. replace ((i <? k) || (j <? k)) with true by zlia. reflexivity.
          * replace ((i <? k + 1) || (j <? k + 1)) with true by zlia. subst i.
            rewrite (bo_out E cb A _ _ _ _ _ _ _ _ B3) by (auto; lia). rewrite (bo_out E cb A _ _ _ _ _ _ _ _ B2) by (auto; lia).
            rewrite V1 by lia. unfold stored. replace (j <? k) with false by zlia. reflexivity.
          * replace ((i <? k + 1) || (j <? k + 1)) with true by zlia. subst j.
            rewrite (bo_out E cb A _ _ _ _ _ _ _ _ B3) by (auto; lia). rewrite S2 by lia. rewrite V2 by lia.
            rewrite mul_inv by (apply T4; lia). unfold stored. replace (k <? i) with true by zlia. reflexivity.
          * replace ((i <? k + 1) || (j <? k + 1)) with false by zlia. rewrite S3 by (unfold inb; lia).
            rewrite S2 by lia. rewrite (bo_out E cb A _ _ _ _ _ m2 i j B2) by (auto; lia). rewrite (bo_out E cb A _ _ _ _ _ m2 k j B2) by (try apply Pr; lia).
            rewrite V2 by lia. rewrite mul_inv by (apply T4; lia). rewrite V1 by lia. rewrite HI by auto.
            replace ((i <? k) || (j <? k)) with false by zlia. rewrite rest_S by (unfold N in Hk; Lia.lia). ring.
        + eapply outb_trans; [exact HO|]. eapply outb_trans; eapply bo_outb; eauto.
      - intros q [] m1 Hq1 Hq2 (HI & HO). apply wp_ret. split; [reflexivity|]. split; [|exact HO].
        intros i j Hp. rewrite HI by auto. destruct Hp. replace ((i <? q) || (j <? q)) with true by (unfold N in Hq2; Lia.lia). reflexivity.
    Qed.

    Lemma blk_nopiv_wp : forall A lb l u m, 0 < lb -> env_ok E L cb A -> mok L A -> triangles (rows A) (cols A) l u ->
      (forall i j, pos A i j -> elt m A i j = vsum K (Z.min (rows A) (cols A)) (fun q => l i q *' u q j)) ->
      wp (blk_lufactor_nopiv K E A lb) L m (fun r m' => r = 0 /\
        (forall i j, pos A i j -> elt m' A i j = stored l u i j) /\ outb cb (e_p E) A m m').
    Proof.
      intros A lb l u m Hlb EO OKA HT H0. pose proof HT as (T1 & T2 & T3 & T4). pose proof OKA as ((Hr & Hc & _) & _). pose proof EO as (_ & _ & F1 & F2 & _).
      set (N := Z.min (rows A) (cols A)). assert (HN : N <= rows A /\ N <= cols A) by (unfold N; Lia.lia).
      unfold blk_lufactor_nopiv. wbind. rewrite part_at.
      apply (wp_down L A lb (more_than lb) (N - 1 - lb) _ (fun k _ m' => linv A l u k m' /\ outb cb (e_p E) A m m')); try (fold N; lia).
      - intros q Hq. apply more_than_iff. exact Hq.
      - split; [|apply outb_refl]. intros i j Hp. replace (i <? 0) with false by (destruct Hp; zlia).
        replace (j <? 0) with false by (destruct Hp; zlia). cbn [orb]. rewrite H0 by auto. unfold rest. rewrite Z.sub_0_r. reflexivity.
      - intros k [] m1 Hk (HI & HO). replace (Z.min lb (Z.min (rows A - k) (cols A - k))) with lb by Lia.lia. cbv zeta.
        cbn [b3at A11 A21 A22 A12]. rename lb into n. set (R := rows A - k - n). set (C := cols A - k - n).
        assert (HRC : 0 < R /\ 0 < C /\ k + n + R = rows A /\ k + n + C = cols A) by (unfold R, C; lia). clearbody R C.
        assert (I11 : inA A k k n n) by (repeat split; lia). assert (I12 : inA A k (k + n) n C) by (repeat split; lia).
        assert (I21 : inA A (k + n) k R n) by (repeat split; lia). assert (I22 : inA A (k + n) (k + n) R C) by (repeat split; lia).
        assert (HX : forall i j, k <= i < rows A -> k <= j < cols A -> elt m1 A i j = rest N l u k i j).
        { intros i j Hi Hj. rewrite HI by (split; lia). replace ((i <? k) || (j <? k)) with false by zlia. reflexivity. }
        (* A11 *)
        assert (TL : triangles n n (fun i q => l (k + i) (k + q)) (fun q j => u (k + q) (k + j))).
        { split; [intros; apply T1; lia|]. split; [intros; apply T2; fold N; lia|]. split; [intros; apply T3; lia|]. intros; apply T4; lia. }
        wbind. eapply wp_conseq; [apply (unblk_nopiv_wp (subm A k k n n) (fun i q => l (k + i) (k + q)) (fun q j => u (k + q) (k + j)) m1)|].
        { apply V_env; auto. }
        { apply V_ok; auto. }
        { exact TL. }
        { intros i j (Hi & Hj). cbn [rows cols armas_submatrix_unsafe armas_make] in *. rewrite V_elt. rewrite HX by lia. rewrite (rest_split N l u k n) by lia.
          rewrite (rest_zero (rows A) (cols A)) by (auto; lia). rewrite Z.min_id. ring. }
        intros r2 m2 (-> & S2 & O2). pose proof (blk_frame E L cb A EO OKA k k n n m1 m2 I11 O2) as B2.
        assert (D2 : forall i j, 0 <= i < n -> 0 <= j < n -> elt m2 A (k + i) (k + j) = stored l u (k + i) (k + j)).
        { intros i j Hi Hj. rewrite <- (V_elt A m2 k k n n). rewrite S2 by (split; cbn [rows cols armas_submatrix_unsafe armas_make]; lia).
          unfold stored. replace (k + j <? k + i) with (j <? i) by zlia. reflexivity. }
        (* A12 *)
        wbind. apply (solve_left_unit_wp K HF HE E L cb A); auto; try lia. intros m3 S3 B3.
        assert (D3 : forall i j, 0 <= i < n -> 0 <= j < C -> elt m3 A (k + i) (k + n + j) = u (k + i) (k + n + j)).
        { intros i j Hi Hj. assert (Hi0 : 0 <= i) by lia. revert Hi. apply (Z_lt_induction (fun i => 0 <= i < n -> elt m3 A (k + i) (k + n + j) = u (k + i) (k + n + j))).
          2: exact Hi0.
          clear i Hi0. intros i IH Hi. specialize (S3 i j Hi Hj). rewrite (bo_out E cb A _ _ _ _ _ m2 (k + i) (k + n + j) B2) in S3 by (try split; lia).
          rewrite HX in S3 by lia. rewrite (rest_split N l u k (i + 1)) in S3 by lia.
          rewrite (rest_zero (rows A) (cols A) l u N (k + (i + 1))) in S3 by (auto; lia). rewrite vsum_S in S3 by lia. rewrite T2 in S3 by (fold N; lia).
          rewrite (vsum_ext K i _ (fun q => l (k + i) (k + q) *' u (k + q) (k + n + j))) in S3.
          2:{ intros q Hq. rewrite D2 by lia. unfold stored. replace (k + q <? k + i) with true by zlia. rewrite IH by lia. reflexivity. }
          apply cancel_add in S3 || (eapply cancel_add; rewrite S3; ring). }
        (* A21 *)
        assert (D2' : forall i j, 0 <= i < n -> 0 <= j < n -> elt m3 A (k + i) (k + j) = stored l u (k + i) (k + j)).
        { intros i j Hi Hj. rewrite (bo_out E cb A _ _ _ _ _ m3 _ _ B3) by (try split; lia). apply D2; auto. }
        assert (ND : forall i, 0 <= i < n -> u (k + i) (k + i) <> zero K) by (intros; apply T4; lia).
        wbind. apply (solve_right_upper_wp K HF HE E L cb A); auto; try lia.
        { intros i Hi. rewrite D2' by lia. unfold stored. rewrite Z.ltb_irrefl. apply ND; auto. }
        intros m4 S4 B4.
        assert (D4 : forall i j, 0 <= i < R -> 0 <= j < n -> elt m4 A (k + n + i) (k + j) = l (k + n + i) (k + j)).
        { intros i j Hi Hj. assert (Hj0 : 0 <= j) by lia. revert Hj. apply (Z_lt_induction (fun j => 0 <= j < n -> elt m4 A (k + n + i) (k + j) = l (k + n + i) (k + j))).
          2: exact Hj0.
          clear j Hj0. intros j IH Hj. specialize (S4 i j Hi Hj). rewrite (bo_out E cb A _ _ _ _ _ m3 (k + n + i) (k + j) B3) in S4 by (try split; lia).
          rewrite (bo_out E cb A _ _ _ _ _ m2 (k + n + i) (k + j) B2) in S4 by (try split; lia).
          rewrite HX in S4 by lia. rewrite (rest_split N l u k (j + 1)) in S4 by lia.
          rewrite (rest_zero (rows A) (cols A) l u N (k + (j + 1))) in S4 by (auto; lia). rewrite vsum_S in S4 by lia.
          rewrite D2' in S4 by lia. unfold stored in S4. rewrite Z.ltb_irrefl in S4.
          rewrite (vsum_ext K j _ (fun q => l (k + n + i) (k + q) *' u (k + q) (k + j))) in S4.
          2:{ intros q Hq. rewrite D2' by lia. unfold stored. replace (k + j <? k + q) with false by zlia. rewrite IH by lia. reflexivity. }
          apply (cancel_r _ _ (u (k + j) (k + j))); [apply ND; lia|]. eapply cancel_add. rewrite S4. ring. }
        (* A22 *)
        wbind. apply (mult_wp K HF HE E L cb A); auto; try lia. intros m5 S5 B5. apply wp_ret. split.
        + intros i j Hp. pose proof Hp as (Hi & Hj).
          destruct (Z_lt_le_dec i (k + n)) as [Hin|Hin]; [|destruct (Z_lt_le_dec j (k + n)) as [Hjn|Hjn]].
          1, 2: replace ((i <? k + n) || (j <? k + n)) with true by zlia; rewrite (bo_out E cb A _ _ _ _ _ m5 i j B5) by (auto; lia).
          * rewrite (bo_out E cb A _ _ _ _ _ m4 i j B4) by (auto; lia).
            destruct (Z_lt_le_dec i k) as [Hik|Hik]; [|destruct (Z_lt_le_dec j k) as [Hjk|Hjk]].
            1, 2: rewrite (bo_out E cb A _ _ _ _ _ m3 i j B3), (bo_out E cb A _ _ _ _ _ m2 i j B2), HI by (auto; lia);
              replace ((i <? k) || (j <? k)) with true by zlia; reflexivity.
            destruct (Z_lt_le_dec j (k + n)) as [Hjn|Hjn].
            { specialize (D2' (i - k) (j - k)). replace (k + (i - k)) with i in D2' by lia. replace (k + (j - k)) with j in D2' by lia. apply D2'; lia. }
            { specialize (D3 (i - k) (j - k - n)). replace (k + (i - k)) with i in D3 by lia. replace (k + n + (j - k - n)) with j in D3 by lia.
              rewrite D3 by lia. unfold stored. replace (j <? i) with false by zlia. reflexivity. }
          * destruct (Z_lt_le_dec j k) as [Hjk|Hjk].
            { rewrite (bo_out E cb A _ _ _ _ _ m4 i j B4), (bo_out E cb A _ _ _ _ _ m3 i j B3), (bo_out E cb A _ _ _ _ _ m2 i j B2), HI by (auto; lia).
              replace ((i <? k) || (j <? k)) with true by zlia. reflexivity. }
            specialize (D4 (i - k - n) (j - k)). replace (k + n + (i - k - n)) with i in D4 by lia. replace (k + (j - k)) with j in D4 by lia.
            rewrite D4 by lia. unfold stored. replace (j <? i) with true by zlia. reflexivity.
          * replace ((i <? k + n) || (j <? k + n)) with false by zlia. rewrite S5 by (unfold inb; lia).
            rewrite (bo_out E cb A _ _ _ _ _ m4 i j B4), (bo_out E cb A _ _ _ _ _ m3 i j B3), (bo_out E cb A _ _ _ _ _ m2 i j B2), HX by (auto; lia).
            rewrite (rest_split N l u k n) by lia.
            rewrite (vsum_ext K n (fun q => elt m4 A i (k + q) *' elt m4 A (k + q) j) (fun q => l i (k + q) *' u (k + q) j)); [fold N; ring|].
            intros q Hq. rewrite (bo_out E cb A _ _ _ _ _ m4 (k + q) j B4) by (try split; lia).
            specialize (D4 (i - k - n) q). replace (k + n + (i - k - n)) with i in D4 by lia. rewrite D4 by lia.
            specialize (D3 q (j - k - n)). replace (k + n + (j - k - n)) with j in D3 by lia. rewrite D3 by lia. reflexivity.
        + eapply outb_trans; [exact HO|]. eapply outb_trans; [eapply bo_outb; eauto|]. eapply outb_trans; [eapply bo_outb; eauto|].
          eapply outb_trans; eapply bo_outb; eauto.
      - intros k [] m1 Hk1 Hk2 (HI & HO). cbn [fst b2at ABR]. fold N in Hk2.
        wbind. apply wp_when; intros EM.
        + apply more_iff in EM; [|fold N; lia]. fold N in EM.
          assert (IV : inA A k k (rows A - k) (cols A - k)) by (repeat split; lia).
          wbind. eapply wp_conseq; [apply (unblk_nopiv_wp (subm A k k (rows A - k) (cols A - k)) (fun i q => l (k + i) (k + q)) (fun q j => u (k + q) (k + j)) m1)|].
          { apply V_env; auto. }
          { apply V_ok; auto. }
          { change (triangles (rows A - k) (cols A - k) (fun i q => l (k + i) (k + q)) (fun q j => u (k + q) (k + j))).
            split; [intros; apply T1; lia|]. split; [intros; apply T2; lia|]. split; [intros; apply T3; lia|]. intros; apply T4; lia. }
          { intros i j (Hi & Hj). cbn [rows cols armas_submatrix_unsafe armas_make] in *. rewrite V_elt. rewrite HI by (split; lia).
            replace ((k + i <? k) || (k + j <? k)) with false by zlia. unfold rest.
            replace (Z.min (rows A - k) (cols A - k)) with (Z.min (rows A) (cols A) - k) by Lia.lia. reflexivity. }
          intros r2 m2 (-> & S2 & O2). pose proof (blk_frame E L cb A EO OKA k k _ _ m1 m2 IV O2) as B2.
          apply wp_ret. apply wp_ret. split; [reflexivity|]. split.
          * intros i j Hp. pose proof Hp as (Hi & Hj).
            destruct (Z_lt_le_dec i k) as [Hik|Hik]; [|destruct (Z_lt_le_dec j k) as [Hjk|Hjk]].
            1, 2: rewrite (bo_out E cb A _ _ _ _ _ m2 i j B2), HI by (auto; lia);
              replace ((i <? k) || (j <? k)) with true by zlia; reflexivity.
            specialize (S2 (i - k) (j - k)). rewrite V_elt in S2. replace (k + (i - k)) with i in S2 by lia. replace (k + (j - k)) with j in S2 by lia.
            rewrite S2 by (split; cbn [rows cols armas_submatrix_unsafe armas_make]; lia). unfold stored.
            replace (j - k <? i - k) with (j <? i) by zlia. replace (k + (i - k)) with i by lia. replace (k + (j - k)) with j by lia. reflexivity.
          * eapply outb_trans; [exact HO|]. eapply bo_outb; eauto.
        + apply wp_ret. split; [reflexivity|]. split; [|exact HO].
          assert (HkN : k = N).
          { destruct (Z.eq_dec k N); auto. exfalso. assert (more (subm A k k (rows A - k) (cols A - k)) = true); [|congruence].
            apply more_iff; fold N; lia. }
          intros i j Hp. rewrite HI by auto. destruct Hp. replace ((i <? k) || (j <? k)) with true by (unfold N in HkN; Lia.lia). reflexivity.
    Qed.
  End A.
End N.
