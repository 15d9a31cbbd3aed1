(* PInv2.v: the loops of the inverse of a triangular matrix. *)
From Coq Require Import ZArith Lia Bool ZifyBool Ring Field.
From Verif Require Import Mem MView SpecView PView PSub Hoare MFlags MBase MCopy PUpd PCopy
  MNum SpecNum MBlas1 PSum PBlas1 MElem PElem MBlas2 PMvec PBlas2 PFrame SpecTrm MTrm PTrm MGemm PGemm PMatcpy PMult
  MTrsm PTrsm MTrmm PTrmm MLap PLap MQr MQrMul PQrMul MInv PInvM PInv
  Properties_Gemm Properties_Trm Properties_Trsm Properties_Trmm.
Local Open Scope Z_scope.
Local Open Scope prog_scope.
Ltac lia := Lia.lia.

Section P.
  Context {T : Type} (K : num T).
  Hypotheses (HF : is_field K) (HE : eqb_ok K).
  Let HR : is_ring K := Field_theory.F_R HF.
  Let HR' : ring_theory (zero K) (one K) (add K) (mul K) (sub K) (opp K) eq := HR.
  Add Ring KringIQ : HR'.
  Local Notation "a +' b" := (add K a b) (at level 50, left associativity).
  Local Notation "a *' b" := (mul K a b) (at level 40, left associativity).
  Local Notation "0'" := (zero K).
  Local Notation "1'" := (one K).
  Local Notation tr := (tr K).
  Local Notation inv_on := (inv_on K).

  Variables (E : lenv) (L : Z -> bool) (cb : cbuf).
  Local Notation p := (e_p E).

  Section B.
    Variable A : view.
    Hypotheses (EO : env_ok E L cb A) (OKA : mok L A).
    Local Notation V := (armas_submatrix_unsafe A).
    Local Notation "m .[ i , j ]" := (elt m A i j) (at level 1, format "m .[ i ,  j ]").
    Local Notation only := (blk_only E cb A).

    (* ---- what the loops keep: columns d0 to d0+nd are done ---- *)
    Definition zdiag (m : Z -> T) (d0 nd : Z) : Prop := exists i, d0 <= i < d0 + nd /\ m.[i, i] = 0'.
    Definition nzdiag (m : Z -> T) (d0 nd : Z) : Prop := forall i, d0 <= i < d0 + nd -> m.[i, i] <> 0'.

    Definition ist (up un : bool) (ce : Z) (m : Z -> T) (d0 nd : Z) (s : Z * Z) (m' : Z -> T) : Prop :=
      (nzdiag m d0 nd -> inv_on up (cols A) d0 nd (elt m' A) (elt m A)) /\
      (forall i j, pos A i j -> ~ (inT up i j = true /\ d0 <= j < d0 + nd) -> m'.[i, j] = m.[i, j]) /\
      outb cb p A m m' /\
      (un = true -> forall i, 0 <= i < cols A -> m'.[i, i] = 1') /\
      (s = (0, ce) /\ nzdiag m d0 nd \/ s = (-1, ARMAS_ESINGULAR) /\ zdiag m d0 nd).

    Definition dd0 (up : bool) (k b : Z) : Z := if up then 0 else k + b.
    Definition dnd (up : bool) (k b : Z) : Z := if up then k else cols A - k - b.

    Lemma round_wp : forall (up : bool) flags ce m k s m1, rows A = cols A -> 0 <= k < cols A ->
      ist up (has flags ARMAS_UNIT) ce m (dd0 up k 1) (dnd up k 1) s m1 ->
      wp (inv_round K E flags (if up then ARMAS_UPPER else ARMAS_LOWER) (V k k 1 1) (V (dd0 up k 1) k (dnd up k 1) 1)
            (V (dd0 up k 1) (dd0 up k 1) (dnd up k 1) (dnd up k 1)) s) L m1
        (fun s' m' => ist up (has flags ARMAS_UNIT) ce m (if up then 0 else k) (dnd up k 1 + 1) s' m').
    Proof.
      intros up flags ce m k s m1 Sq Hk (J1 & J2 & J3 & J4 & J5). set (n := cols A) in *. set (d0 := dd0 up k 1) in *. set (nd := dnd up k 1) in *.
      assert (G : (up = true /\ d0 = 0 /\ nd = k) \/ (up = false /\ d0 = k + 1 /\ nd = n - k - 1)) by (unfold d0, nd, dd0, dnd; fold n; destruct up; auto).
      assert (HA1 : inA A k k 1 1) by (unfold inA; fold n; lia).
      assert (HA2 : inA A d0 k nd 1) by (unfold inA; fold n; lia).
      assert (HA3 : inA A d0 d0 nd nd) by (unfold inA; fold n; lia).
      assert (DJ : d0 + nd <= d0 \/ d0 + nd <= d0 \/ k + 1 <= d0 \/ d0 + nd <= k) by lia.
      assert (U1 : forall i, k = i \/ d0 <= i < d0 + nd -> m1.[i, k] = m.[i, k]).
      { intros i Hi. apply J2; [split; lia|]. lia. }
      assert (ID : forall i, (if up then 0 else k) <= i < (if up then 0 else k) + (nd + 1) <-> d0 <= i < d0 + nd \/ i = k).
      { intros i. destruct up; lia. }
      (* the end of the round *)
      assert (FIN : forall c m3, m.[k, k] <> 0' -> m3.[k, k] = c -> c *' m.[k, k] = 1' -> (has flags ARMAS_UNIT = true -> c = 1') ->
        (forall i, 0 <= i < nd -> m3.[d0 + i, k] = opp K c *' vsum K nd (fun q => tr up (fun i j => m1.[d0 + i, d0 + j]) i q *' m.[d0 + q, k])) ->
        (forall i j, pos A i j -> ~ (j = k /\ (i = k \/ d0 <= i < d0 + nd)) -> m3.[i, j] = m1.[i, j]) -> outb cb p A m1 m3 ->
        ist up (has flags ARMAS_UNIT) ce m (if up then 0 else k) (nd + 1) s m3).
      { intros c m3 N0 C1 C2 C3 C4 C5 C6. split; [|split; [|split; [|split]]].
        - intros NZ. assert (NZD : nzdiag m d0 nd) by (intros i Hi; apply NZ; apply ID; auto).
          pose proof (inv_step K HF up n k 1 (elt m A) (elt m1 A) (elt m3 A) ltac:(lia) ltac:(lia) ltac:(lia)) as ST. cbv zeta in ST.
          replace (if up then 0 else k + 1) with d0 in ST by (destruct up; lia).
          replace (if up then k else n - k - 1) with nd in ST by (destruct up; lia). apply ST; clear ST.
          + apply J1; auto.
          + intros i j Hi Hj. assert (i = k) as -> by lia. assert (j = k) as -> by lia.
            rewrite (sum_range K HF n k 1); try lia.
            * rewrite (vsum_1 K HR). replace (k + 0) with k by lia. unfold PInvM.tr, inT. replace (k <=? k) with true by lia.
              unfold dlt. rewrite Z.eqb_refl. rewrite C1. destruct up; exact C2.
            * intros q Hq Ho. unfold PInvM.tr. destruct (inT up k q) eqn:X1; [|ring]. destruct (inT up q k) eqn:X2; [|ring].
              exfalso. unfold inT in *. destruct up; lia.
          + intros i j Hi Hj. assert (j = k) as -> by lia. rewrite (vsum_1 K HR). replace (k + 0) with k by lia.
            unfold PInvM.tr at 1, inT. replace (k <=? k) with true by lia.
            replace (if (if up then true else true) then m.[k, k] else 0') with (m.[k, k]) by (destruct up; reflexivity).
            specialize (C4 (i - d0) ltac:(lia)). replace (d0 + (i - d0)) with i in C4 by lia. rewrite C4.
            rewrite (vsum_ext K nd (fun q => tr up (fun i j => m1.[d0 + i, d0 + j]) (i - d0) q *' m.[d0 + q, k]) (fun q => tr up (elt m1 A) i (d0 + q) *' m.[d0 + q, k])).
            2:{ intros q Hq. unfold PInvM.tr, inT. replace (d0 + (i - d0)) with i by lia.
                replace (i - d0 <=? q) with (i <=? d0 + q) by lia. replace (q <=? i - d0) with (d0 + q <=? i) by lia. reflexivity. }
            set (S := vsum K nd _). transitivity (opp K (c *' m.[k, k] *' S)); [ring|]. rewrite C2. ring.
          + intros i j Hi Hj Ht. apply C5; [split; lia|lia].
        - intros i j (Hi & Hj) Hn. rewrite C5.
          + apply J2; [split; auto|]. intros (X1 & X2). apply Hn. split; auto. apply ID. auto.
          + split; auto.
          + intros (-> & X). apply Hn. split; [|apply ID; auto]. unfold inT. destruct up; lia.
        - eapply outb_trans; eauto.
        - intros U i Hi. destruct (Z.eq_dec i k) as [->|Hne]; [rewrite C1; auto|]. rewrite C5; [apply J4; auto|split; lia|lia].
        - destruct J5 as [(-> & X)|(-> & X)].
          + left. split; [reflexivity|]. intros i Hi. apply ID in Hi. destruct Hi as [Hi| ->]; auto.
          + right. split; [reflexivity|]. destruct X as (i & Hi & X). exists i. split; auto. apply ID. auto. }
      unfold inv_round. destruct (has flags ARMAS_UNIT) eqn:EU.
      - wbind. apply (mvtrm_wp K HF HE E L cb A EO OKA up); auto. intros m3 V1 (V2 & V3). apply wp_ret.
        assert (U1k : m.[k, k] = 1') by (rewrite <- U1 by auto; apply J4; auto).
        apply (FIN 1').
        + rewrite U1k. intros X. apply (Field_theory.F_1_neq_0 HF). exact X.
        + rewrite V2; [apply J4; auto|split; lia|unfold inb; lia].
        + rewrite U1k. ring.
        + reflexivity.
        + intros i Hi. rewrite V1 by auto. f_equal. apply vsum_ext. intros q Hq. rewrite U1 by lia. reflexivity.
        + intros i j Hp Hn. apply V2; auto. unfold inb. lia.
        + exact V3.
      - wbind. apply (getu_wp L A OKA); auto. rewrite U1 by auto. destruct (eqb K m.[k, k] 0') eqn:EZ.
        + apply HE in EZ. apply wp_ret. split; [|split; [|split; [|split]]]; auto.
          * intros NZ. exfalso. apply (NZ k); auto. apply ID. auto.
          * intros i j Hp Hn. apply J2; auto. intros (X1 & X2). apply Hn. split; auto. apply ID. auto.
          * right. split; [|exists k; split; [apply ID; auto|exact EZ]]. unfold inv_singular. destruct J5 as [(-> & X)|(-> & X)]; reflexivity.
        + assert (N0 : m.[k, k] <> 0') by (intros X; apply HE in X; congruence).
          wbind. apply (setu_wp E L cb A EO OKA); auto. intros m2 W1 (W2 & W3). wbind. apply (mvtrm_wp K HF HE E L cb A EO OKA up); auto.
          intros m3 V1 (V2 & V3). apply wp_ret. apply (FIN (div K 1' m.[k, k])).
          * exact N0.
          * rewrite V2; [exact W1|split; lia|unfold inb; lia].
          * apply (Field_theory.Finv_l HF). exact N0.
          * discriminate.
          * intros i Hi. rewrite V1 by auto. f_equal. apply vsum_ext. intros q Hq. f_equal.
            -- unfold PInvM.tr. destruct (inT up i q); [|reflexivity]. apply W2; [split; lia|unfold inb; lia].
            -- rewrite W2; [apply U1; lia|split; lia|unfold inb; lia].
          * intros i j Hp Hn. rewrite V2; [apply W2; auto; unfold inb; lia|auto|unfold inb; lia].
          * eapply outb_trans; eauto.
    Qed.
  End B.
End P.
