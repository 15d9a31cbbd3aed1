(* PQrLs.v: least squares and minimum norm solutions from a QR factorization, without memory. *)
From Coq Require Import ZArith Lia Bool ZifyBool Ring Field.
From Verif Require Import Mem MView SpecView PView PSub Hoare MFlags MBase MCopy PUpd PCopy MBlas1 PBlas1 MElem PElem MBlas2 PMvec PBlas2 PFrame SpecTrm MTrm PTrm MGemm PGemm PMatcpy PMult MTrsm PTrsm MNum SpecNum PSum PNorm SpecHouse SpecQr SpecLs PHouse PQrA PQrB PQrMul PLap Properties_Qr Properties_QrMul.
Local Open Scope Z_scope.

Ltac lia := nobool; zlia.

Section L.
  Context {T : Type} (K : num T).
  Hypotheses (HF : is_field K) (HE : eqb_ok K) (HO : is_ordered K).
  Let HR : is_ring K := Field_theory.F_R HF.
  Let HR' : ring_theory (zero K) (one K) (add K) (mul K) (sub K) (opp K) eq := HR.
  Add Ring KringLS : HR'.
  Let HF' : field_theory (zero K) (one K) (add K) (mul K) (sub K) (opp K) (div K) (fun x => div K (one K) x) eq := HF.
  Add Field KfieldLS : HF'.
  Local Notation "0'" := (zero K).
  Local Notation "1'" := (one K).
  Local Notation "a +' b" := (add K a b) (at level 50, left associativity).
  Local Notation "a -' b" := (sub K a b) (at level 50, left associativity).
  Local Notation "a *' b" := (mul K a b) (at level 40, left associativity).

  Lemma no_zdiv : forall a b, a *' b = 0' -> a <> 0' -> b = 0'.
  Proof. intros a b H Ha. transitivity ((div K 1' a) *' (a *' b)); [field; auto|]. rewrite H. ring. Qed.

  Lemma vsum_sub : forall n f g, vsum K n (fun k => f k -' g k) = vsum K n f -' vsum K n g.
  Proof.
    intros n f g. transitivity (vsum K n (fun k => f k +' (opp K 1') *' g k)); [apply (vsum_ext K); intros; ring|].
    rewrite (vsum_add K HR), (vsum_mul_l K HR). ring.
  Qed.

  (* a triangular system with no zero on the diagonal has a solution *)
  Lemma tri_solve : forall n r b, 0 <= n -> (forall i, 0 <= i < n -> r i i <> 0') -> (forall i j, j < i -> r i j = 0') ->
    exists x, forall i, 0 <= i < n -> mv K n r x i = b i.
  Proof.
    intros n r b Hn. revert b. pattern n. apply vsum_ind; [| |exact Hn].
    - intros b _ _. exists b. intros i Hi. lia.
    - clear n Hn. intros n Hn IH b Hd Hl.
      set (xn := div K (b n) (r n n)).
      destruct (IH (fun i => b i -' r i n *' xn)) as (x & Hx); [intros; apply Hd; lia|exact Hl|].
      exists (fun k => if k =? n then xn else x k). intros i Hi. unfold mv. rewrite vsum_S by lia. rewrite Z.eqb_refl.
      assert (X : vsum K n (fun k => r i k *' (if k =? n then xn else x k)) = mv K n r x i).
      { apply (vsum_ext K). intros k Hk. replace (k =? n) with false by lia. reflexivity. }
      rewrite X. destruct (Z.eq_dec i n) as [->|Hne].
      + unfold mv. rewrite (vsum_zero K HR); [|intros k Hk; rewrite Hl by lia; ring]. unfold xn. field. apply Hd. lia.
      + rewrite Hx by lia. ring.
  Qed.

  (* and for the transposed system the solution is unique *)
  Lemma trit_unique : forall n r z, (forall i, 0 <= i < n -> r i i <> 0') -> (forall i j, j < i -> r i j = 0') ->
    (forall j, 0 <= j < n -> mvt K n r z j = 0') -> forall i, 0 <= i < n -> z i = 0'.
  Proof.
    intros n r z Hd Hl Hz i Hi. assert (X : forall k, 0 <= k < i + 1 -> z k = 0').
    2:{ apply X. lia. }
    assert (Hp : 0 <= i + 1) by lia. assert (Hq : i + 1 <= n) by lia. revert Hq. pattern (i + 1). apply vsum_ind; [intros; lia| |exact Hp].
    clear i Hi Hp. intros i Hi IH Hq k Hk. destruct (Z.eq_dec k i) as [->|Hne]; [|apply IH; lia].
    specialize (Hz i ltac:(lia)). unfold mvt in Hz. rewrite (sum_upto K HF n i) in Hz; [|lia|intros k' Hk'; rewrite Hl by lia; ring].
    rewrite (vsum_zero K HR) in Hz; [|intros k' Hk'; rewrite IH by lia; ring]. apply (no_zdiv (r i i)); [|apply Hd; lia].
    rewrite <- Hz. ring.
  Qed.

  Section R.
    Variables (M N : Z) (a0 a : Z -> Z -> T) (t : Z -> T).
    Hypotheses (HQ : qr_result K M N a0 a t) (HN : 0 <= N <= M).
    Local Notation n := (Z.to_nat N).
    Local Notation R := (upper K a).

    Lemma upper_low : forall i j, j < i -> R i j = 0'.
    Proof. intros i j H. unfold upper. replace (j <? i) with true by lia. reflexivity. Qed.

    Lemma iso_q : isometry K M (qapply K M a t n).
    Proof. apply (qapply_iso K). intros q Hq. apply HQ. lia. Qed.

    Lemma qtq : forall z i, 0 <= i < M -> qtapply K M a t n (qapply K M a t n z) i = z i.
    Proof. intros z i Hi. apply (qt_q_inv K); auto. intros q Hq. apply HQ. lia. Qed.

    Lemma q_qt_inv : forall k z i, (forall q, 0 <= q < Z.of_nat k -> forall z i, 0 <= i < M -> hmap K M a t q (hmap K M a t q z) i = z i) -> 0 <= i < M ->
      qapply K M a t k (qtapply K M a t k z) i = z i.
    Proof.
      intros k. induction k as [|k IH]; intros z i H Hi; cbn [qapply qtapply]; auto.
      transitivity (qapply K M a t k (qtapply K M a t k z) i); [|apply IH; auto; intros; apply H; lia].
      apply (qapply_ext K); auto. intros j Hj. apply H; lia.
    Qed.

    Lemma qqt : forall z i, 0 <= i < M -> qapply K M a t n (qtapply K M a t n z) i = z i.
    Proof. intros z i Hi. apply q_qt_inv; auto. intros q Hq. apply HQ. lia. Qed.

    (* a0*x = Q*R*x *)
    Lemma a0_mv : forall x i, 0 <= i < M -> mv K N a0 x i = qapply K M a t n (mv K N R x) i.
    Proof.
      intros x i Hi. rewrite (q_entry K HF) by auto. unfold mv.
      transitivity (vsum K N (fun k => vsum K M (fun r => qmat K M a t n i r *' (R r k *' x k)))).
      - apply (vsum_ext K). intros k Hk. destruct HQ as (P1 & _). rewrite P1 by auto. rewrite (q_entry K HF) by auto. rewrite <- (vsum_mul_r K HR).
        apply (vsum_ext K). intros; ring.
      - rewrite (vsum_swap K HR). apply (vsum_ext K). intros r Hr. rewrite (vsum_mul_l K HR). reflexivity.
    Qed.

    (* a0^T*z = R^T*(Q^T*z) *)
    Lemma a0_mvt : forall z j, 0 <= j < N -> mvt K M a0 z j = mvt K M R (qtapply K M a t n z) j.
    Proof.
      intros z j Hj. change (mvt K M R (qtapply K M a t n z) j) with (inner K M (fun k => R k j) (qtapply K M a t n z)).
      rewrite <- (q_adj K HF). unfold mvt, inner. apply (vsum_ext K). intros k Hk. destruct HQ as (P1 & _). rewrite P1 by auto. reflexivity.
    Qed.

    Lemma q_sub : forall y z i, 0 <= i < M -> qapply K M a t n (fun r => y r -' z r) i = qapply K M a t n y i -' qapply K M a t n z i.
    Proof.
      intros y z i Hi. rewrite !(q_entry K HF) by auto. rewrite <- vsum_sub. apply (vsum_ext K). intros; ring.
    Qed.

    Lemma nsq_ext : forall k y z, (forall i, 0 <= i < k -> y i = z i) -> nsq K k y = nsq K k z.
    Proof. intros k y z H. apply (inner_ext K); auto. Qed.

    Lemma nsq_split : forall z, nsq K M z = nsq K N z +' nsq K (M - N) (fun r => z (N + r)).
    Proof. intros z. unfold nsq, inner. replace M with (N + (M - N)) at 1 by lia. apply (vsum_split K HR); lia. Qed.

    (* the length of the residual *)
    Lemma resid : forall x b, let y := qtapply K M a t n b in
      nsq K M (fun i => mv K N a0 x i -' b i) = nsq K N (fun i => mv K N R x i -' y i) +' nsq K (M - N) (fun r => y (N + r)).
    Proof.
      intros x b y. transitivity (nsq K M (qapply K M a t n (fun r => mv K N R x r -' y r))).
      - apply nsq_ext. intros i Hi. rewrite q_sub by auto. rewrite <- a0_mv by auto. unfold y. rewrite qqt by auto. reflexivity.
      - unfold nsq at 1. rewrite iso_q. fold (nsq K M (fun r => mv K N R x r -' y r)). rewrite nsq_split. f_equal.
        unfold nsq, inner. apply (vsum_ext K). intros r Hr.
        assert (Z0 : mv K N R x (N + r) = 0').
        { unfold mv. apply (vsum_zero K HR). intros k Hk. rewrite upper_low by lia. ring. }
        rewrite Z0. ring.
    Qed.

    (* linearly independent columns: no zero on the diagonal of R *)
    Lemma indep_diag : independent K M N a0 -> forall i, 0 <= i < N -> a i i <> 0'.
    Proof.
      intros HI i Hi. assert (X : forall k, 0 <= k < i + 1 -> a k k <> 0').
      2:{ apply X. lia. }
      assert (Hp : 0 <= i + 1) by lia. assert (Hq : i + 1 <= N) by lia. revert Hq. pattern (i + 1). apply vsum_ind; [intros; lia| |exact Hp].
      clear i Hi Hp. intros i Hi IH Hq k Hk. destruct (Z.eq_dec k i) as [->|Hne]; [|apply IH; lia]. intros Hz.
      destruct (tri_solve i R (fun r => opp K (R r i))) as (x & Hx); [lia| |intros; apply upper_low; auto|].
      { intros j Hj. unfold upper. replace (j <? j) with false by lia. apply IH; lia. }
      set (z := fun k => if k <? i then x k else if k =? i then 1' else 0').
      assert (Y : z i = 0').
      { apply HI; [|lia]. intros r Hr. rewrite a0_mv by auto. rewrite (q_entry K HF) by auto. apply (vsum_zero K HR). intros q Hq'.
        assert (W : mv K N R z q = 0'); [|rewrite W; ring]. unfold mv. rewrite (sum_upto K HF N i); [|lia|intros k' Hk'; unfold z; replace (k' <? i) with false by lia; replace (k' =? i) with false by lia; ring].
        assert (V : vsum K i (fun k => R q k *' z k) = mv K i R x q).
        { apply (vsum_ext K). intros k' Hk'. unfold z. replace (k' <? i) with true by lia. reflexivity. }
        rewrite V. unfold z. replace (i <? i) with false by lia. rewrite Z.eqb_refl. destruct (Z_lt_ge_dec q i) as [Hqi|Hqi].
        - rewrite Hx by lia. ring.
        - unfold mv. rewrite (vsum_zero K HR); [|intros k' Hk'; rewrite upper_low by lia; ring].
          destruct (Z.eq_dec q i) as [->|Hqn]; [unfold upper; replace (i <? i) with false by lia; rewrite Hz; ring|rewrite upper_low by lia; ring]. }
      unfold z in Y. replace (i <? i) with false in Y by lia. rewrite Z.eqb_refl in Y. exact (Field_theory.F_1_neq_0 HF Y).
    Qed.

    Lemma nsq_nn : forall k z, ltb K (nsq K k z) 0' = false.
    Proof. intros k z. unfold nsq, inner. apply (vsum_nn K HF HO). intros; apply (o_sq_nn K HF HO). Qed.

    Lemma le_add : forall p q, ltb K p 0' = false -> ltb K (p +' q) q = false.
    Proof.
      intros p q Hp. destruct (ltb K (p +' q) q) eqn:X; auto. exfalso.
      destruct HO as (_ & H2 & _). apply (H2 _ _ (opp K q)) in X. replace (p +' q +' opp K q) with p in X by ring.
      replace (q +' opp K q) with 0' in X by ring. congruence.
    Qed.

    (* least squares *)
    Lemma ls_min : forall x b, (forall i, 0 <= i < N -> mv K N R x i = qtapply K M a t n b i) ->
      (forall x', ltb K (nsq K M (fun i => mv K N a0 x' i -' b i)) (nsq K M (fun i => mv K N a0 x i -' b i)) = false) /\
      nsq K M (fun i => mv K N a0 x i -' b i) = nsq K (M - N) (fun r => qtapply K M a t n b (N + r)).
    Proof.
      intros x b Hx. assert (E : nsq K M (fun i => mv K N a0 x i -' b i) = nsq K (M - N) (fun r => qtapply K M a t n b (N + r))).
      { rewrite resid. cbv zeta. assert (Z0 : nsq K N (fun i => mv K N R x i -' qtapply K M a t n b i) = 0').
        { unfold nsq, inner. apply (vsum_zero K HR). intros i Hi. rewrite Hx by auto. ring. }
        rewrite Z0. ring. }
      split; [|exact E]. intros x'. rewrite E, resid. cbv zeta. apply le_add. apply nsq_nn.
    Qed.

    (* and nothing else has so small a residual *)
    Lemma ls_unique : forall x b, (forall i, 0 <= i < N -> a i i <> 0') -> (forall i, 0 <= i < N -> mv K N R x i = qtapply K M a t n b i) ->
      forall x', nsq K M (fun i => mv K N a0 x' i -' b i) = nsq K M (fun i => mv K N a0 x i -' b i) -> forall i, 0 <= i < N -> x' i = x i.
    Proof.
      intros x b Hd Hx x' He. rewrite (proj2 (ls_min x b Hx)), resid in He. cbv zeta in He. set (y := qtapply K M a t n b) in *.
      assert (Z0 : nsq K N (fun i => mv K N R x' i -' y i) = 0').
      { set (p := nsq K N (fun i => mv K N R x' i -' y i)) in *. set (q := nsq K (M - N) (fun r => y (N + r))) in *.
        transitivity ((p +' q) -' q); [ring|]. rewrite He. ring. }
      assert (E : forall i, 0 <= i < N -> mv K N R (fun k => x' k -' x k) i = 0').
      { intros i Hi. pose proof (inner0 K HF HO HE N _ Z0 i Hi) as X. cbv beta in X. rewrite <- Hx in X by auto.
        transitivity (mv K N R x' i -' mv K N R x i); [|exact X]. unfold mv. rewrite <- vsum_sub. apply (vsum_ext K). intros; ring. }
      (* backward substitution *)
      assert (U : forall d, 0 <= d -> forall i, N - d <= i < N -> 0 <= i -> x' i -' x i = 0').
      { intros d Hd0. pattern d. apply vsum_ind; [intros; lia| |exact Hd0]. clear d Hd0. intros d Hd0 IH i Hi Hi0.
        destruct (Z.eq_dec i (N - (d + 1))) as [Ei|Ei]; [|apply IH; lia].
        specialize (E i ltac:(lia)). unfold mv in E. replace N with (i + (1 + d)) in E at 1 by lia. rewrite !(vsum_split K HR) in E by lia. rewrite (vsum_1 K HR) in E.
        rewrite (vsum_zero K HR) in E; [|intros k Hk; rewrite upper_low by lia; ring].
        rewrite (vsum_zero K HR d) in E; [|intros k Hk; rewrite IH by lia; ring].
        apply (no_zdiv (a i i)); [|apply Hd; lia]. rewrite Z.add_0_r in E. unfold upper in E. replace (i <? i) with false in E by lia. rewrite <- E. ring. }
      intros i Hi. specialize (U N ltac:(lia) i ltac:(lia) ltac:(lia)). transitivity ((x' i -' x i) +' x i); [ring|]. rewrite U. ring.
    Qed.

    (* minimum norm: x = Q*(u, 0) with R^T*u = c *)
    Lemma mn_ok : forall u x c, (forall j, 0 <= j < N -> mvt K N R u j = c j) ->
      (forall i, 0 <= i < M -> x i = qapply K M a t n (fun r => if r <? N then u r else 0') i) ->
      (forall j, 0 <= j < N -> mvt K M a0 x j = c j) /\
      ((forall i, 0 <= i < N -> a i i <> 0') ->
       forall x', (forall j, 0 <= j < N -> mvt K M a0 x' j = c j) -> ltb K (nsq K M x') (nsq K M x) = false).
    Proof.
      intros u x c Hu Hx. set (z := fun r => if r <? N then u r else 0') in *.
      assert (Cut : forall v j, 0 <= j < N -> mvt K M R v j = mvt K N R v j).
      { intros v j Hj. unfold mvt. replace M with (N + (M - N)) by lia. rewrite (vsum_split K HR) by lia.
        rewrite (vsum_zero K HR (M - N)); [ring|]. intros k Hk. rewrite upper_low by lia. ring. }
      assert (E1 : forall i, 0 <= i < M -> qtapply K M a t n x i = z i).
      { intros i Hi. transitivity (qtapply K M a t n (qapply K M a t n z) i); [|apply qtq; auto]. apply (qtapply_ext K); auto. }
      split.
      - intros j Hj. rewrite a0_mvt, Cut by auto. rewrite <- Hu by auto. unfold mvt. apply (vsum_ext K). intros k Hk. rewrite E1 by lia. unfold z. replace (k <? N) with true by lia. reflexivity.
      - intros Hd x' Hx'. set (z' := qtapply K M a t n x').
        assert (E2 : forall i, 0 <= i < N -> z' i = u i).
        { intros i Hi. assert (X : z' i -' u i = 0').
          - apply (trit_unique N R (fun k => z' k -' u k)); auto.
            + intros k Hk. unfold upper. replace (k <? k) with false by lia. auto.
            + apply upper_low.
            + intros j Hj. unfold mvt. transitivity (mvt K N R z' j -' mvt K N R u j).
              * unfold mvt. rewrite <- vsum_sub. apply (vsum_ext K). intros; ring.
              * rewrite Hu by auto. rewrite <- Cut by auto. unfold z'. rewrite <- a0_mvt by auto. rewrite Hx' by auto. ring.
          - transitivity ((z' i -' u i) +' u i); [ring|]. rewrite X. ring. }
        assert (N1 : nsq K M x' = nsq K M z').
        { transitivity (nsq K M (qapply K M a t n z')); [apply nsq_ext; intros i Hi; symmetry; apply qqt; auto|apply iso_q]. }
        assert (N2 : nsq K M x = nsq K M z).
        { transitivity (nsq K M (qapply K M a t n z)); [apply nsq_ext; intros i Hi; apply Hx; auto|apply iso_q]. }
        rewrite N1, N2, (nsq_split z'), (nsq_split z).
        assert (N3 : nsq K N z' = nsq K N z).
        { apply nsq_ext. intros i Hi. rewrite E2 by auto. unfold z. replace (i <? N) with true by lia. reflexivity. }
        assert (N4 : nsq K (M - N) (fun r => z (N + r)) = 0').
        { unfold nsq, inner. apply (vsum_zero K HR). intros k Hk. unfold z. replace (N + k <? N) with false by lia. ring. }
        rewrite N3, N4. set (p := nsq K N z). set (q := nsq K (M - N) (fun r => z' (N + r))).
        replace (p +' q) with (q +' (p +' 0')) by ring. apply le_add. apply nsq_nn.
    Qed.
  End R.
End L.
