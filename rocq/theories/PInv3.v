(* PInv3.v: the blocked loops of the inverse of a triangular matrix. *)
From Coq Require Import ZArith Lia Bool ZifyBool Ring Field.
From Verif Require Import Mem MView SpecView PView PSub Hoare MFlags MBase MCopy PUpd PCopy
  MNum SpecNum MBlas1 PSum PBlas1 MElem PElem MBlas2 PMvec PBlas2 PFrame SpecTrm MTrm PTrm MGemm PGemm PMatcpy PMult
  MTrsm PTrsm MTrmm PTrmm MLap PLap MQr MQrMul PQrMul MInv PInvM PInv PInv2
  Properties_Gemm Properties_Trm Properties_Trsm Properties_Trmm.
Local Open Scope Z_scope.
Local Open Scope prog_scope.
Ltac lia := nobool; zlia.

Ltac gl := match goal with G : (?up = true /\ _) \/ _ |- _ => destruct G as [(-> & ? & ?)|(-> & ? & ?)]; cbv iota in *; Lia.lia end.

Ltac fl := unfold plain_flags, no_abs; repeat split; rewrite ?has_lor; repeat match goal with H : has ?f ?x = _ |- context [has ?f ?x] => rewrite H end; reflexivity.

Section U.
  Context {T : Type} (K : num T).
  Hypotheses (HF : is_field K) (HE : eqb_ok K).
  Let HR : is_ring K := Field_theory.F_R HF.
  Let HR' : ring_theory (zero K) (one K) (add K) (mul K) (sub K) (opp K) eq := HR.
  Add Ring KringIR : HR'.
  Local Notation "a +' b" := (add K a b) (at level 50, left associativity).
  Local Notation "a *' b" := (mul K a b) (at level 40, left associativity).
  Local Notation "0'" := (zero K).
  Local Notation "1'" := (one K).
  Local Notation tr := (tr K).
  Local Notation inv_on := (inv_on K).
  Variables (E : lenv) (L : Z -> bool) (cb : cbuf).
  Local Notation p := (e_p E).

  Lemma ist_0 : forall A up un ce (m : Z -> T) d, (un = true -> forall i, 0 <= i < cols A -> elt m A i i = 1') ->
    ist K E cb A up un ce m d 0 (0, ce) m.
  Proof.
    intros A up un ce m d HU. split; [|split; [|split; [|split]]]; auto.
    - intros _ i j Hi. exfalso. lia.
    - intros a _ _. reflexivity.
    - left. split; [reflexivity|]. intros i Hi. exfalso. lia.
  Qed.

  Definition unblk (up : bool) := if up then unblk_inverse_upper K E else unblk_inverse_lower K E.

  Lemma unblk_wp : forall A up flags ce m, env_ok E L cb A -> mok L A -> rows A = cols A ->
    (has flags ARMAS_UNIT = true -> forall i, 0 <= i < cols A -> elt m A i i = 1') ->
    wp (unblk up A flags ce) L m (fun s m' => ist K E cb A up (has flags ARMAS_UNIT) ce m 0 (cols A) s m').
  Proof.
    intros A up flags ce m EO OKA Sq HU. pose proof EO as (_ & _ & Hf1 & Hf2 & _). pose proof OKA as ((W1 & W2 & W3) & _).
    unfold unblk. destruct up.
    - unfold unblk_inverse_upper. wbind. rewrite part_at.
      apply (wp_down L A 1 more (cols A - 1) _ (fun k s m' => ist K E cb A true (has flags ARMAS_UNIT) ce m 0 k s m')); try lia.
      + intros q Hq. rewrite more_iff by auto. lia.
      + apply ist_0; auto.
      + intros q s m1 Hq HI. cbv zeta. replace (Z.min 1 (Z.min (rows A - q) (cols A - q))) with 1 by lia. unfold b3at. cbn [A00 A01 A11].
        apply (round_wp K HF HE E L cb A EO OKA true flags ce m q s m1); auto. lia.
      + intros q s m1 Hq Hq2 HI. cbn [snd]. apply wp_ret. cbn [snd]. replace (cols A) with q by lia. replace (Z.min (rows A) (cols A)) with q in * by lia. exact HI.
    - unfold unblk_inverse_lower.
      replace (ATL (mat_partition_2x2 A 0 0 PBottom)) with (subm A 0 0 (cols A) (cols A)).
      2:{ unfold mat_partition_2x2. cbn [ATL]. rewrite ?Z.sub_0_r, Sq. reflexivity. }
      apply (wp_up L A 1 _ (fun k s m' => ist K E cb A false (has flags ARMAS_UNIT) ce m k (cols A - k) s m')); try lia.
      + replace (cols A - cols A) with 0 by lia. apply ist_0; auto.
      + intros q s m1 Hq HI. cbv zeta. replace (Z.min 1 q) with 1 by lia. unfold b3at. cbn [A21 A22 A11].
        pose proof (round_wp K HF HE E L cb A EO OKA false flags ce m (q - 1) s m1 Sq ltac:(lia)) as X. unfold dd0, dnd in X. rewrite Sq.
        replace (q - 1 + 1) with q in * by lia. replace (cols A - (q - 1) - 1) with (cols A - q) in * by lia.
        replace (cols A - (q - 1)) with (cols A - q + 1) by lia. apply X. exact HI.
      + intros s m1 HI. rewrite Z.sub_0_r in HI. exact HI.
  Qed.

  Section C.
    Variable A : view.
    Hypotheses (EO : env_ok E L cb A) (OKA : mok L A).
    Local Notation V := (armas_submatrix_unsafe A).
    Local Notation "m .[ i , j ]" := (elt m A i j) (at level 1, format "m .[ i ,  j ]").

    Lemma bstep_wp : forall (up : bool) flags f1 f2 ce m k b s m1, rows A = cols A -> 0 <= k -> 0 < b -> k + b <= cols A ->
      has f1 ARMAS_RIGHT = false -> has f1 ARMAS_UPPER = up -> has f1 ARMAS_LOWER = negb up ->
      has f1 ARMAS_UNIT = has flags ARMAS_UNIT -> has f1 ARMAS_TRANSA = false -> has f1 ARMAS_ABSA = false ->
      has f2 ARMAS_RIGHT = true -> has f2 ARMAS_LEFT = false -> has f2 ARMAS_UPPER = up -> has f2 ARMAS_LOWER = negb up ->
      has f2 ARMAS_UNIT = has flags ARMAS_UNIT -> has f2 ARMAS_TRANSA = false -> plain_flags f2 ->
      has (e_opt E) ARMAS_ONAIVE = true \/ b < e_b2 E ->
      ist K E cb A up (has flags ARMAS_UNIT) ce m (dd0 up k b) (dnd A up k b) s m1 ->
      wp (l_mult_trm K E (V (dd0 up k b) k (dnd A up k b) b) 1' (V (dd0 up k b) (dd0 up k b) (dnd A up k b) (dnd A up k b)) f1 ;;
          l_solve_trm K E (V (dd0 up k b) k (dnd A up k b) b) (opp K 1') (V k k b b) f2 ;;
          u <- unblk up (V k k b b) flags (snd s) ;;
          ret (inv_err (fst s) u)) L m1
        (fun s' m' => ist K E cb A up (has flags ARMAS_UNIT) ce m (if up then 0 else k) (dnd A up k b + b) s' m').
    Proof.
      intros up flags f1 f2 ce m k b s m1 Sq Hk Hb Hkb A1 A2 A3 A4 A5 A6 B1 B2 B3 B4 B5 B6 B7 HB (J1 & J2 & J3 & J4 & J5).
      set (n := cols A) in *. set (d0 := dd0 up k b) in *. set (nd := dnd A up k b) in *.
      assert (G : (up = true /\ d0 = 0 /\ nd = k) \/ (up = false /\ d0 = k + b /\ nd = n - k - b)) by (unfold d0, nd, dd0, dnd; fold n; destruct up; auto).
      assert (G' : (d0 = 0 /\ nd = k) \/ (d0 = k + b /\ nd = n - k - b)) by (clear - G; tauto).
      assert (HA1 : inA A k k b b) by (unfold inA; fold n; lia).
      assert (HA2 : inA A d0 k nd b) by (unfold inA; fold n; lia).
      assert (HA3 : inA A d0 d0 nd nd) by (unfold inA; fold n; lia).
      assert (ID : forall i, (if up then 0 else k) <= i < (if up then 0 else k) + (nd + b) <-> d0 <= i < d0 + nd \/ k <= i < k + b).
      { clear A1 A2 A3 A4 A5 A6 B1 B2 B3 B4 B5 B6 B7 HB. intros i. gl. }
      assert (U1 : forall i j, 0 <= i < n -> k <= j < k + b -> m1.[i, j] = m.[i, j]).
      { intros i j Hi Hj. apply J2; [split; fold n; lia|]. lia. }
      wbind. apply (mtrm_wp K HF HE E L cb A EO OKA up (has flags ARMAS_UNIT)); auto; [lia|intros X i Hi; apply J4; auto; lia|].
      intros m2 P1 (P2 & P3).
      assert (U2 : forall i j, k <= i < k + b -> k <= j < k + b -> m2.[i, j] = m.[i, j]).
      { intros i j Hi Hj. rewrite P2; [apply U1; lia|split; fold n; lia|unfold inb; lia]. }
      wbind. apply (strm_wp K HF HE E L cb A EO OKA up (has flags ARMAS_UNIT)); auto; [lia| |].
      { intros X i Hi. rewrite P2; [apply J4; auto; lia|split; fold n; lia|unfold inb; lia]. }
      clear A1 A2 A3 A4 A5 A6 B1 B2 B3 B4 B5 B6 B7 HB. intros m3 S1 (S2 & S3).
      assert (U3 : forall i j, k <= i < k + b -> k <= j < k + b -> m3.[i, j] = m.[i, j]).
      { intros i j Hi Hj. rewrite S2; [apply U2; lia|split; fold n; lia|unfold inb; lia]. }
      wbind. eapply wp_conseq; [apply (unblk_wp (V k k b b) up flags (snd s))|].
      { apply (V_env E L cb A EO OKA); auto. }
      { apply (V_ok L A OKA); auto. }
      { reflexivity. }
      { intros X i Hi. cbn [cols armas_submatrix_unsafe armas_make] in Hi. rewrite V_elt. rewrite U3 by lia. rewrite <- U1 by lia. apply J4; auto; lia. }
      cbn [cols armas_submatrix_unsafe armas_make]. intros u m4 (Q1 & Q2 & Q3 & Q4 & Q5). apply wp_ret.
      change (cols (V k k b b)) with b in Q1. cbn [cols armas_submatrix_unsafe armas_make] in Q4.
      destruct (blk_frame E L cb A EO OKA k k b b m3 m4 HA1 Q3) as (Q6 & Q7).
      (* inside the block *)
      assert (Q8 : forall i j, k <= i < k + b -> k <= j < k + b -> inT up i j = false -> m4.[i, j] = m3.[i, j]).
      { intros i j Hi Hj Ht. specialize (Q2 (i - k) (j - k)). rewrite !V_elt in Q2. replace (k + (i - k)) with i in Q2 by lia. replace (k + (j - k)) with j in Q2 by lia.
        apply Q2; [split; cbn [rows cols armas_submatrix_unsafe armas_make]; lia|]. intros (X & _). unfold inT in *. gl. }
      split; [|split; [|split; [|split]]].
      - intros NZ. assert (NZD : nzdiag K A m d0 nd) by (intros i Hi; apply NZ; apply ID; auto).
        assert (NZB : forall i, 0 <= i < b -> m.[k + i, k + i] <> 0') by (intros i Hi; apply NZ; apply ID; lia).
        pose proof (inv_step K HF up n k b (elt m A) (elt m1 A) (elt m4 A) ltac:(lia) ltac:(lia) ltac:(lia)) as ST. cbv zeta in ST.
        replace (if up then 0 else k + b) with d0 in ST by (gl).
        replace (if up then k else n - k - b) with nd in ST by (gl). apply ST; clear ST.
        + apply J1; auto.
        + intros i j Hi Hj.
          assert (NZ3 : nzdiag K (V k k b b) m3 0 b).
          { intros q Hq. rewrite V_elt. rewrite U3 by lia. apply NZB. lia. }
          specialize (Q1 NZ3 (i - k) (j - k) ltac:(lia) ltac:(lia)).
          rewrite (sum_range K HF n k b); try lia.
          * transitivity (dlt K (i - k) (j - k)); [|unfold dlt; replace (i - k =? j - k) with (i =? j) by Lia.lia; reflexivity].
            rewrite <- Q1. apply vsum_ext. intros q Hq. unfold PInvM.tr. rewrite !V_elt. replace (k + (i - k)) with i by lia. replace (k + (j - k)) with j by lia.
            replace (inT up i (k + q)) with (inT up (i - k) q) by (unfold inT; gl).
            replace (inT up (k + q) j) with (inT up q (j - k)) by (unfold inT; gl).
            rewrite U3 by lia. reflexivity.
          * intros q Hq Ho. unfold PInvM.tr. destruct (inT up i q) eqn:X1; [|ring]. destruct (inT up q j) eqn:X2; [|ring].
            exfalso. unfold inT in *. gl.
        + intros i j Hi Hj.
          assert (S4 : forall i, 0 <= i < b -> m2.[k + i, k + i] <> 0') by (intros q Hq; rewrite U2 by lia; apply NZB; lia).
          specialize (S1 S4 (i - d0) (j - k) ltac:(lia) ltac:(lia)).
          replace (d0 + (i - d0)) with i in S1 by lia. replace (k + (j - k)) with j in S1 by lia.
          specialize (P1 (i - d0) (j - k) ltac:(lia) ltac:(lia)). replace (d0 + (i - d0)) with i in P1 by lia. replace (k + (j - k)) with j in P1 by lia.
          rewrite P1 in S1.
          rewrite (vsum_ext K b _ (fun q => m3.[i, k + q] *' tr up (fun i j => m2.[k + i, k + j]) q (j - k))).
          2:{ intros q Hq. rewrite Q6; [|split; fold n; lia|unfold inb; lia]. f_equal. unfold PInvM.tr.
              replace (inT up (k + q) j) with (inT up q (j - k)) by (unfold inT; gl).
              replace (k + (j - k)) with j by lia. rewrite U2 by lia. reflexivity. }
          rewrite S1. f_equal. apply vsum_ext. intros q Hq. rewrite U1 by lia. f_equal. unfold PInvM.tr.
          replace (inT up i (d0 + q)) with (inT up (i - d0) q) by (unfold inT; gl).
          replace (d0 + (i - d0)) with i by lia. reflexivity.
        + intros i j Hi Hj Ht.
          rewrite Q6; [|split; fold n; lia|unfold inb; lia]. rewrite S2; [|split; fold n; lia|unfold inb; lia].
          apply P2; [split; fold n; lia|unfold inb; lia].
      - intros i j (Hi & Hj) Hn. fold n in Hj.
        assert (X1 : inT up i j = true -> ~ (d0 <= j < d0 + nd \/ k <= j < k + b)) by (intros X Y; apply Hn; split; auto; apply ID; auto).
        assert (X2 : m1.[i, j] = m.[i, j]).
        { apply J2; [split; auto|]. intros (Y1 & Y2). apply X1; auto. }
        assert (X3 : m3.[i, j] = m1.[i, j]).
        { assert (~ inb d0 k nd b i j).
          { intros (Y1 & Y2). apply X1; auto. unfold inT. gl. }
          rewrite S2; [apply P2; auto; split; auto|split; auto|auto]. }
        rewrite <- X2, <- X3.
        assert (XC : inb k k b b i j \/ ~ inb k k b b i j) by (unfold inb; lia). destruct XC as [(Y1 & Y2)|Y].
        + destruct (inT up i j) eqn:Ht; [exfalso; apply X1; auto|]. apply Q8; auto.
        + apply Q6; auto. split; auto.
      - intros a Ha Hb'. rewrite Q7, S3, P3, J3; auto.
      - intros X i Hi. fold n in Hi. assert (XC : k <= i < k + b \/ ~ (k <= i < k + b)) by lia. destruct XC as [Y|Y].
        + specialize (Q4 X (i - k) ltac:(lia)). rewrite V_elt in Q4. replace (k + (i - k)) with i in Q4 by lia. exact Q4.
        + rewrite Q6; [|split; fold n; lia|unfold inb; lia]. rewrite S2; [|split; fold n; lia|unfold inb; lia].
          rewrite P2; [apply J4; auto|split; fold n; lia|unfold inb; lia].
      - assert (NB : nzdiag K (V k k b b) m3 0 b -> forall i, k <= i < k + b -> m.[i, i] <> 0').
        { intros X i Hi. specialize (X (i - k) ltac:(lia)). rewrite V_elt in X. replace (k + (i - k)) with i in X by lia. rewrite U3 in X by lia. exact X. }
        assert (ZB : zdiag K (V k k b b) m3 0 b -> zdiag K A m (if up then 0 else k) (nd + b)).
        { intros (i & Hi & X). exists (k + i). split; [apply ID; lia|]. rewrite V_elt in X. rewrite U3 in X by lia. exact X. }
        assert (ZD : zdiag K A m d0 nd -> zdiag K A m (if up then 0 else k) (nd + b)).
        { intros (i & Hi & X). exists i. split; [apply ID; auto|exact X]. }
        destruct J5 as [(-> & X)|(-> & X)], Q5 as [(-> & Y)|(-> & Y)]; cbn [fst snd inv_err].
        + left. split; [reflexivity|]. intros i Hi. apply ID in Hi. destruct Hi as [Hi|Hi]; [apply X; auto|apply NB; auto].
        + right. split; [reflexivity|auto].
        + right. split; [reflexivity|auto].
        + right. split; [reflexivity|auto].
    Qed.

    Definition blk (up : bool) := if up then blk_inverse_upper K E else blk_inverse_lower K E.

    Lemma blk_wp : forall (up : bool) flags ce m, rows A = cols A -> 0 < e_lb E ->
      has flags ARMAS_RIGHT = false -> has flags ARMAS_LEFT = false -> has flags ARMAS_TRANSA = false -> plain_flags flags ->
      has flags (if up then ARMAS_LOWER else ARMAS_UPPER) = false ->
      has (e_opt E) ARMAS_ONAIVE = true \/ e_lb E < e_b2 E ->
      (has flags ARMAS_UNIT = true -> forall i, 0 <= i < cols A -> m.[i, i] = 1') ->
      wp (blk up A flags (e_lb E) ce) L m (fun s m' => ist K E cb A up (has flags ARMAS_UNIT) ce m 0 (cols A) s m').
    Proof.
      intros up flags ce m Sq Hlb F1 F2 F3 F4 F5 HB HU. pose proof EO as (_ & _ & Hf1 & Hf2 & _). pose proof OKA as ((W1 & W2 & W3) & _).
      pose proof F4 as (G1 & G2 & G3 & G4 & G5). 
      unfold blk. destruct up.
      - unfold blk_inverse_upper. wbind. rewrite part_at.
        apply (wp_down L A (e_lb E) more (cols A - 1) _ (fun k s m' => ist K E cb A true (has flags ARMAS_UNIT) ce m 0 k s m')); try lia.
        + intros q Hq. rewrite more_iff by auto. lia.
        + apply ist_0; auto.
        + intros q s m1 Hq HI. cbv zeta. set (b := Z.min (e_lb E) (Z.min (rows A - q) (cols A - q))). unfold b3at. cbn [A00 A01 A11].
          apply (bstep_wp true flags _ _ ce m q b s m1); auto; try (unfold b; lia); try (destruct HB as [?|?]; [left; assumption|right; unfold b; lia]); fl.
        + intros q s m1 Hq Hq2 HI. apply wp_ret. cbn [snd]. replace (cols A) with q by lia. replace (Z.min (rows A) (cols A)) with q in * by lia. exact HI.
      - unfold blk_inverse_lower.
        replace (ATL (mat_partition_2x2 A 0 0 PBottom)) with (subm A 0 0 (cols A) (cols A)).
        2:{ unfold mat_partition_2x2. cbn [ATL]. rewrite ?Z.sub_0_r, Sq. reflexivity. }
        apply (wp_up L A (e_lb E) _ (fun k s m' => ist K E cb A false (has flags ARMAS_UNIT) ce m k (cols A - k) s m')); try lia.
        + replace (cols A - cols A) with 0 by lia. apply ist_0; auto.
        + intros q s m1 Hq HI. cbv zeta. set (b := Z.min (e_lb E) q). unfold b3at. cbn [A21 A22 A11].
          pose proof (bstep_wp false flags (Z.lor (Z.lor ARMAS_LEFT ARMAS_LOWER) flags) (Z.lor (Z.lor ARMAS_RIGHT ARMAS_LOWER) flags) ce m (q - b) b s m1 Sq) as X.
          unfold dd0, dnd in X. rewrite Sq.
          replace (q - b + b) with q in * by lia. replace (cols A - (q - b) - b) with (cols A - q) in * by lia.
          replace (cols A - (q - b)) with (cols A - q + b) by lia. apply X; auto; try (unfold b; lia); try (destruct HB as [?|?]; [left; assumption|right; unfold b; lia]); fl.
        + intros s m1 HI. rewrite Z.sub_0_r in HI. exact HI.
    Qed.
  End C.
End U.
