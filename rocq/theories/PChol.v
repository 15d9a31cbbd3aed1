(* PChol.v: the Cholesky factorization.  Lower and upper are treated together: g m i j is
   element (i,j) of the lower factor, which is stored at (j,i) when the upper triangle is used. *)
From Coq Require Import ZArith Lia Bool ZifyBool Ring.
From Verif Require Import Mem MView SpecView PView PSub Hoare MFlags MBase MCopy PUpd PCopy
  MNum SpecNum MBlas1 PSum PBlas1 PNorm MElem PElem MBlas2 PMvec PBlas2
  PFrame SpecTrm MTrm PTrm MSym PSym MGemm PGemm PMatcpy PMult MTrsm PTrsm MUpdTrm PUpdTrm MLap MChol PLap SpecChol PCholM
  Properties_Blas1 Properties_Blas2 Properties_Trm Properties_Sym Properties_Gemm Properties_Trsm Properties_UpdTrm.
Local Open Scope Z_scope.
Local Open Scope prog_scope.

Ltac lia := nobool; zlia.

Section C.
  Context {T : Type} (K : num T).
  Hypotheses (HF : is_field K) (HE : eqb_ok K) (HO : is_ordered K) (HS : sqrt_ok K).
  Let HR : is_ring K := Field_theory.F_R HF.
  Let HR' : ring_theory (zero K) (one K) (add K) (mul K) (sub K) (opp K) eq := HR.
  Add Ring KringCh : HR'.
  Local Notation "a +' b" := (add K a b) (at level 50, left associativity).
  Local Notation "a -' b" := (sub K a b) (at level 50, left associativity).
  Local Notation "a *' b" := (mul K a b) (at level 40, left associativity).
  Local Notation "0'" := (zero K).
  Local Notation pos' x := (ltb K (zero K) x = true).

  (* one step of the factorization: l columns *)
  Lemma schur_step : forall n k l a f f', 0 <= k -> 0 <= l -> schur K n k a f ->
    (forall i j, 0 <= j < k -> j <= i < n -> f' i j = f i j) ->
    (forall i j, k <= j < k + l -> j <= i < n -> f i j = vsum K (j - k + 1) (fun q => f' i (k + q) *' f' j (k + q))) ->
    (forall j, k <= j < k + l -> j < n -> pos' (f' j j)) ->
    (forall i j, k + l <= j <= i -> i < n -> f' i j = f i j -' vsum K l (fun q => f' i (k + q) *' f' j (k + q))) ->
    schur K n (k + l) a f'.
  Proof.
    intros n k l a f f' Hk Hl (S1 & S2) H1 H2 H3 H4. split.
    - intros i j Hij Hi. rewrite S1 by auto. destruct (j <? k) eqn:E1.
      + replace (j <? k + l) with true by Lia.lia. rewrite !Z.min_r by lia. f_equal. apply vsum_ext. intros p Hp.
        rewrite !H1 by lia. reflexivity.
      + replace (Z.min k (j + 1)) with k by Lia.lia. destruct (j <? k + l) eqn:E2.
        * rewrite Z.min_r by lia. replace (j + 1) with (k + (j - k + 1)) by lia. rewrite (vsum_split K HR k (j - k + 1)) by lia.
          rewrite (H2 i j) by lia. rewrite (vsum_ext K k (fun p => f' i p *' f' j p) (fun p => f i p *' f j p)); [ring|].
          intros p Hp. rewrite !H1 by lia. reflexivity.
        * rewrite Z.min_l by lia. rewrite (vsum_split K HR k l) by lia. rewrite (H4 i j) by lia.
          rewrite (vsum_ext K k (fun p => f' i p *' f' j p) (fun p => f i p *' f j p)); [ring|].
          intros p Hp. rewrite !H1 by lia. reflexivity.
    - intros j Hj Hn. destruct (Z_lt_dec j k); [rewrite H1 by lia; apply S2; lia|]. apply H3; lia.
  Qed.

  (* the pivot test and the loops of both versions in one *)
  Definition okp (up : bool) (a : T) : bool := if up then ltb K 0' a else negb (ltb K a 0').
  Definition gflag (up : bool) : Z := if up then ARMAS_UPPER else ARMAS_LOWER.

  Definition gen_unblk (E : lenv) (up : bool) (A : view) (cerr : Z) : M T (Z * Z) :=
    r <- down_loop (e_fuel E) A 1 more
      (fun _ t (s : Z * Z) =>
         a11val <- armas_get (zero K) (A11 t) 0 0 ;;
         if okp up a11val then
           let a11val := sqrt K a11val in
           armas_set (A11 t) 0 0 a11val ;;
           armas_scale K (if up then A12 t else A21 t) (div K (one K) a11val) ;;
           l_mvupdate_sym K E (one K) (A22 t) (opp K (one K)) (if up then A12 t else A21 t) (gflag up) ;;
           ret s
         else ret (bad_pivot K a11val s))
      (mat_partition_2x2 A 0 0 PTop) (0, cerr) ;;
    ret (snd r).

  Definition sflag (up : bool) : Z :=
    if up then Z.lor ARMAS_LEFT (Z.lor ARMAS_UPPER ARMAS_TRANSA) else Z.lor ARMAS_RIGHT (Z.lor ARMAS_LOWER ARMAS_TRANSA).
  Definition uflag (up : bool) : Z := if up then Z.lor ARMAS_UPPER ARMAS_TRANSA else ARMAS_LOWER.

  Definition gen_blk (E : lenv) (up : bool) (A : view) (lb : Z) (cerr : Z) : M T (Z * Z) :=
    r <- down_loop (e_fuel E) A lb (more_than lb)
      (fun _ t (s : Z * Z) =>
         u <- gen_unblk E up (A11 t) (snd s) ;;
         let s := keep_err (fst s) u in
         l_solve_trm K E (if up then A12 t else A21 t) (one K) (A11 t) (sflag up) ;;
         l_update_sym K E (one K) (A22 t) (opp K (one K)) (if up then A12 t else A21 t) (uflag up) ;;
         ret s)
      (mat_partition_2x2 A 0 0 PTop) (0, cerr) ;;
    let s := snd r in
    if rows (ABR (fst r)) >? 0 then
      u <- gen_unblk E up (ABR (fst r)) (snd s) ;;
      ret (keep_err (fst s) u)
    else ret s.

  Lemma lower_gen : forall E, unblk_cholfactor_lower K E = gen_unblk E false /\ blk_cholfactor_lower K E = gen_blk E false.
  Proof. split; reflexivity. Qed.
  Lemma upper_gen : forall E, unblk_cholfactor_upper K E = gen_unblk E true /\ blk_cholfactor_upper K E = gen_blk E true.
  Proof. split; reflexivity. Qed.

  Definition gv (up : bool) (A : view) (m : Z -> T) (i j : Z) : T := if up then elt m A j i else elt m A i j.

  (* which codes a bad pivot gives *)
  Definition badcode (up : bool) (c : Z) : Prop := c = ARMAS_ENEGATIVE \/ (up = true /\ c = ARMAS_ESINGULAR).

  (* the state after k columns; a is the matrix at the beginning *)
  Definition cstate (up : bool) (n k : Z) (a : Z -> Z -> T) (cerr : Z) (s : Z * Z) (f : Z -> Z -> T) : Prop :=
    (s = (0, cerr) /\ schur K n k a f) \/
    (~ pos_def K n (sy a) /\
     ((fst s = -1 /\ badcode up (snd s)) \/ (up = false /\ s = (0, cerr) /\ exists q, 0 <= q < k /\ f q q = 0'))).

  Lemma sqrt_pos : forall a, pos' a -> pos' (sqrt K a).
  Proof.
    intros a Ha. destruct (HS a (o_nlt K HO _ _ Ha)) as (H1 & H2).
    destruct (o_tot K HO 0' (sqrt K a)) as [H|[H|H]]; [exact H| |congruence].
    exfalso. rewrite <- H in H2. assert (X : a = 0') by (rewrite <- H2; ring). rewrite X, (o_irr K HO) in Ha. discriminate.
  Qed.

  Lemma bad_keep : forall up k k' cerr (s : Z * Z) (f f' : Z -> Z -> T), k <= k' ->
    (fst s = -1 /\ badcode up (snd s)) \/ (up = false /\ s = (0, cerr) /\ exists q, 0 <= q < k /\ f q q = 0') ->
    (forall q, 0 <= q < k -> f' q q = f q q) ->
    (fst s = -1 /\ badcode up (snd s)) \/ (up = false /\ s = (0, cerr) /\ exists q, 0 <= q < k' /\ f' q q = 0').
  Proof.
    intros up k k' cerr s f f' Hk [H|(H1 & H2 & q & Hq & H3)] Hf; [left; exact H|right]. split; [exact H1|]. split; [exact H2|].
    exists q. split; [lia|]. rewrite Hf by lia. exact H3.
  Qed.

  Lemma cstate_ext : forall up n k a a' cerr s f f', (forall i j, a i j = a' i j) -> (forall i j, f i j = f' i j) ->
    cstate up n k a cerr s f -> cstate up n k a' cerr s f'.
  Proof.
    intros up n k a a' cerr s f f' Ha Hf [(Hs & S1 & S2)|(NP & B)].
    - left. split; [exact Hs|]. split.
      + intros i j Hj Hi. rewrite <- Ha, S1 by auto. rewrite Hf. f_equal. apply vsum_ext. intros p Hp. rewrite !Hf. reflexivity.
      + intros j Hj Hn. rewrite <- Hf. apply S2; auto.
    - right. split.
      + intros HP. apply NP. intros x Hx. rewrite <- (HP x Hx). f_equal. unfold quad. apply vsum_ext. intros i Hi. apply vsum_ext. intros j Hj.
        f_equal. unfold sy. destruct (j <=? i); apply Ha.
      + destruct B as [B|(B1 & B2 & q & Hq & B3)]; [left; exact B|right]. split; [exact B1|]. split; [exact B2|].
        exists q. split; [exact Hq|]. rewrite <- Hf. exact B3.
  Qed.

  (* the unblocked step *)
  Lemma one_step : forall up n k a cerr s f f', 0 <= k < n -> cstate up n k a cerr s f -> okp up (f k k) = true ->
    f' k k = sqrt K (f k k) ->
    (forall i, k < i < n -> f' i k = f i k *' div K (one K) (sqrt K (f k k))) ->
    (forall i j, k < j <= i -> i < n -> f' i j = f i j -' f' i k *' f' j k) ->
    (forall i j, 0 <= j < k -> j <= i < n -> f' i j = f i j) ->
    cstate up n (k + 1) a cerr s f'.
  Proof.
    intros up n k a cerr s f f' Hk [(Hs & S)|(NP & B)] Hok Hd Hc Hu Hf.
    - destruct (ltb K 0' (f k k)) eqn:Ep.
      + left. split; [exact Hs|]. pose proof (sqrt_pos _ Ep) as Hp. pose proof (o_ne K HO _ _ Hp) as Hne.
        destruct (HS _ (o_nlt K HO _ _ Ep)) as (_ & Hsq).
        apply (schur_step n k 1 a f f'); auto; try lia.
        * intros i j Hj Hi. replace j with k by lia. replace (k - k + 1) with 1 by lia. rewrite (vsum_1 K HR), Z.add_0_r, Hd.
          destruct (Z.eq_dec i k) as [->|Hik]; [rewrite Hd; auto|]. rewrite Hc by lia.
          transitivity (f i k *' (sqrt K (f k k) *' div K (one K) (sqrt K (f k k)))); [|ring].
          rewrite (div_mul K HR HF) by auto. ring.
        * intros j Hj Hn. replace j with k by lia. rewrite Hd. exact Hp.
        * intros i j Hj Hi. rewrite Hu by lia. rewrite (vsum_1 K HR), Z.add_0_r. reflexivity.
      + right. split; [apply (bad_pivot_npd K HF HO n k a f); auto|]. right. unfold okp in Hok. destruct up; [congruence|].
        split; [reflexivity|]. split; [exact Hs|]. exists k. split; [lia|]. rewrite Hd.
        assert (E0 : f k k = 0').
        { destruct (o_tot K HO 0' (f k k)) as [H|[H|H]]; [congruence|auto|rewrite H in Hok; discriminate]. }
        rewrite E0. destruct (HS 0' (o_irr K HO _)) as (H1 & H2).
        destruct (o_tot K HO 0' (sqrt K 0')) as [H|[H|H]]; [|auto|congruence].
        pose proof (o_mul K HO _ _ H H) as H3. rewrite H2, (o_irr K HO) in H3. discriminate.
    - right. split; [exact NP|]. apply (bad_keep up k (k + 1) cerr s f f'); auto; [lia|]. intros q Hq. apply Hf; lia.
  Qed.

  Lemma bad_step : forall up n k a cerr s f, 0 <= k < n -> cstate up n k a cerr s f -> okp up (f k k) = false ->
    cstate up n (k + 1) a cerr (bad_pivot K (f k k) s) f.
  Proof.
    intros up n k a cerr s f Hk HC Hok. right. split.
    - destruct HC as [(Hs & S)|(NP & _)]; [|exact NP]. apply (bad_pivot_npd K HF HO n k a f); auto.
      unfold okp in Hok. destruct up; [exact Hok|]. apply negb_false_iff in Hok. apply (o_nlt K HO). exact Hok.
    - left. unfold bad_pivot.
      assert (X : fst s = 0 \/ (fst s = -1 /\ badcode up (snd s))).
      { destruct HC as [(-> & _)|(_ & [H|(_ & -> & _)])]; auto. }
      destruct X as [X|(X1 & X2)].
      + rewrite X. cbn [Z.eqb fst snd]. split; [reflexivity|]. unfold badcode. unfold okp in Hok. destruct up.
        * destruct (ltb K (f k k) 0'); auto.
        * apply negb_false_iff in Hok. rewrite Hok. auto.
      + rewrite X1. cbn [Z.eqb]. auto.
  Qed.

  (* the blocked step *)
  Lemma block_step : forall up n k l a cerr s u f f2 f', 0 <= k -> 0 <= l -> k + l <= n -> cstate up n k a cerr s f ->
    cstate up l l (fun i j => f (k + i) (k + j)) (snd s) u (fun i j => f2 (k + i) (k + j)) ->
    (forall i j, 0 <= j < k -> j <= i < n -> f' i j = f i j) ->
    (forall i j, k <= j <= i -> i < k + l -> f' i j = f2 i j) ->
    ((forall j, k <= j < k + l -> f2 j j <> 0') ->
       (forall i j, k + l <= i < n -> k <= j < k + l -> vsum K (j - k + 1) (fun q => f' i (k + q) *' f2 j (k + q)) = f i j)) ->
    (forall i j, k + l <= j <= i -> i < n -> f' i j = f i j -' vsum K l (fun q => f' i (k + q) *' f' j (k + q))) ->
    cstate up n (k + l) a cerr (keep_err (fst s) u) f'.
  Proof.
    intros up n k l a cerr s u f f2 f' Hk Hl Hn HC HB Hf H2 Hsol Hu.
    assert (NB : (exists B : Prop, B) -> ~ pos_def K l (sy (fun i j => f (k + i) (k + j))) -> schur K n k a f -> ~ pos_def K n (sy a)).
    { intros _ H S. apply (block_npd K HF HO n k l a f); auto. }
    specialize (NB (ex_intro _ True I)).
    destruct HC as [(-> & S)|(NP & B)].
    - destruct HB as [(-> & SB)|(NPB & B)].
      + left. split; [reflexivity|]. destruct SB as (SB1 & SB2).
        assert (D : forall j, k <= j < k + l -> pos' (f2 j j)).
        { intros j Hj. specialize (SB2 (j - k) ltac:(lia) ltac:(lia)). replace (k + (j - k)) with j in SB2 by lia. exact SB2. }
        apply (schur_step n k l a f f'); auto.
        * intros i j Hj Hi. destruct (Z_lt_dec i (k + l)) as [Hi2|Hi2].
          -- specialize (SB1 (i - k) (j - k) ltac:(lia) ltac:(lia)). replace (j - k <? l) with true in SB1 by Lia.lia.
             rewrite Z.min_r in SB1 by lia. replace (k + (i - k)) with i in SB1 by lia. replace (k + (j - k)) with j in SB1 by lia.
             rewrite SB1. match goal with |- ?x +' 0' = _ => transitivity x; [ring|] end. apply vsum_ext. intros q Hq.
             rewrite !H2 by lia. reflexivity.
          -- rewrite <- Hsol; try lia.
             ++ apply vsum_ext. intros q Hq. rewrite (H2 j (k + q)) by lia. reflexivity.
             ++ intros j0 Hj0. apply (o_ne K HO). apply D. exact Hj0.
        * intros j Hj _. rewrite H2 by lia. apply D. exact Hj.
      + right. split; [auto|]. destruct B as [(B1 & B2)|(B1 & -> & q & Hq & B2)].
        * left. unfold keep_err. cbn [fst snd]. rewrite B1. cbn [Z.eqb negb fst snd]. auto.
        * right. split; [exact B1|]. split; [reflexivity|]. exists (k + q). split; [lia|]. rewrite H2 by lia. exact B2.
    - right. split; [exact NP|].
      destruct B as [(B1 & B2)|(B1 & -> & q & Hq & B2)].
      + left. unfold keep_err. rewrite B1. cbn [Z.eqb fst snd]. split; [destruct (negb (fst u =? 0)); reflexivity|].
        destruct HB as [(-> & _)|(_ & [(_ & H)|(_ & -> & _)])]; auto.
      + destruct HB as [(-> & _)|(_ & [(H & H')|(_ & -> & _)])].
        * right. split; [exact B1|]. split; [reflexivity|]. exists q. split; [lia|]. rewrite Hf by lia. exact B2.
        * left. unfold keep_err. cbn [fst snd]. rewrite H. cbn [Z.eqb negb fst snd]. auto.
        * right. split; [exact B1|]. split; [reflexivity|]. exists q. split; [lia|]. rewrite Hf by lia. exact B2.
  Qed.

  Section Ops.
    Variables (E : lenv) (L : Z -> bool) (cb : cbuf) (A : view).
    Hypotheses (EO : env_ok E L cb A) (OKA : mok L A) (Sq : rows A = cols A).
    Local Notation N := (cols A).
    Local Notation V := (armas_submatrix_unsafe A).
    Let WA : wf A := proj1 OKA.

    (* nothing but the elements in S changes *)
    Definition t_only (up : bool) (S : Z -> Z -> Prop) (m m' : Z -> T) : Prop :=
      (forall i j, 0 <= i < N -> 0 <= j < N -> ~ S i j -> gv up A m' i j = gv up A m i j) /\ outb cb (e_p E) A m m'.

    Lemma t_refl : forall (up : bool) S m, t_only up S m m.
    Proof. intros up S m. split; [reflexivity|apply outb_refl]. Qed.
    Lemma t_trans : forall (up : bool) S m m1 m2, t_only up S m m1 -> t_only up S m1 m2 -> t_only up S m m2.
    Proof. intros up S m m1 m2 (H1 & H2) (H3 & H4). split; [intros; rewrite H3, H1; auto|eapply outb_trans; eauto]. Qed.
    Lemma t_mono : forall (up : bool) (S S' : Z -> Z -> Prop) m m', (forall i j, 0 <= i < N -> 0 <= j < N -> S i j -> S' i j) -> t_only up S m m' -> t_only up S' m m'.
    Proof. intros up S S' m m' H (H1 & H2). split; [|exact H2]. intros i j Hi Hj HS'. apply H1; auto. Qed.

    Lemma blk_t : forall (up : bool) r c nr nc m m', blk_only E cb A r c nr nc m m' ->
      t_only up (fun i j => if up then inb r c nr nc j i else inb r c nr nc i j) m m'.
    Proof.
      intros up r c nr nc m m' (H1 & H2). split; auto. intros i j Hi Hj Hn. unfold gv. destruct up; apply H1; auto; split; lia.
    Qed.

    Lemma inA_V : forall r c nr nc, 0 <= r -> 0 <= c -> 0 <= nr -> 0 <= nc -> r + nr <= N -> c + nc <= N -> inA A r c nr nc.
    Proof. intros. unfold inA. rewrite Sq. lia. Qed.

    Lemma scale_t : forall (up : bool) k alpha m (Q : Z -> (Z -> T) -> Prop), 0 <= k < N ->
      (forall m', (forall i, k < i < N -> gv up A m' i k = gv up A m i k *' alpha) -> t_only up (fun i j => k < i /\ j = k) m m' -> Q 0 m') ->
      wp (armas_scale K (if up then V k (k + 1) 1 (N - k - 1) else V (k + 1) k (N - k - 1) 1) alpha) L m Q.
    Proof.
      intros up k alpha m Q Hk HQ. unfold gv in HQ. destruct up.
      - apply (scale_row_wp K E L cb A EO OKA); [apply inA_V; lia|]. intros m' H1 H2. apply HQ.
        + intros i Hi. apply H1. lia.
        + eapply t_mono; [|apply (blk_t _ _ _ _ _ _ _ H2)]. unfold inb. intros i j _ _ Hb. cbv beta iota in Hb. lia.
      - apply (scale_col_wp K E L cb A EO OKA); [apply inA_V; lia|]. intros m' H1 H2. apply HQ.
        + intros i Hi. apply H1. lia.
        + eapply t_mono; [|apply (blk_t _ _ _ _ _ _ _ H2)]. unfold inb. intros i j _ _ Hb. cbv beta iota in Hb. lia.
    Qed.

    Lemma gget_t : forall (up : bool) k m (Q : T -> (Z -> T) -> Prop), 0 <= k < N -> Q (gv up A m k k) m -> wp (armas_get (zero K) (V k k 1 1) 0 0) L m Q.
    Proof. intros up k m Q Hk HQ. apply (get_blk_wp K E L A OKA); [apply inA_V; lia|]. unfold gv in HQ. destruct up; exact HQ. Qed.

    Lemma gset_t : forall (up : bool) k v m (Q : unit -> (Z -> T) -> Prop), 0 <= k < N ->
      (forall m', gv up A m' k k = v -> t_only up (fun i j => i = k /\ j = k) m m' -> Q tt m') -> wp (armas_set (V k k 1 1) 0 0 v) L m Q.
    Proof.
      intros up k v m Q Hk HQ. apply (set_blk_wp E L cb A EO OKA); [apply inA_V; lia|]. intros m' H1 H2. apply HQ.
      - unfold gv. destruct up; exact H1.
      - eapply t_mono; [|apply (blk_t _ _ _ _ _ _ _ H2)]. intros i j _ _ Hb. unfold inb in Hb. destruct up; lia.
    Qed.

    Lemma msym_t : forall (up : bool) k m (Q : Z -> (Z -> T) -> Prop), 0 <= k < N ->
      (forall m', (forall i j, k < j <= i -> i < N -> gv up A m' i j = gv up A m i j -' gv up A m i k *' gv up A m j k) ->
         t_only up (fun i j => k < j <= i) m m' -> Q 0 m') ->
      wp (l_mvupdate_sym K E (one K) (V (k + 1) (k + 1) (N - k - 1) (N - k - 1)) (opp K (one K))
            (if up then V k (k + 1) 1 (N - k - 1) else V (k + 1) k (N - k - 1) 1) (gflag up)) L m Q.
    Proof.
      intros up k m Q Hk HQ. pose proof EO as (E1 & E2 & E3 & E4 & _).
      assert (I2 : inA A (k + 1) (k + 1) (N - k - 1) (N - k - 1)) by (apply inA_V; lia).
      destruct (V_ok L A OKA _ _ _ _ I2) as (W2 & L2).
      set (x := if up then V k (k + 1) 1 (N - k - 1) else V (k + 1) k (N - k - 1) 1).
      assert (Ox : vok L x).
      { unfold x. destruct up; [apply (V_row L A OKA)|apply (V_col L A OKA)]; apply inA_V; lia. }
      assert (Ex : vlen x = N - k - 1) by (unfold x; destruct up; [apply row_len|apply col_len]).
      assert (Vx : forall i, 0 <= i < N - k - 1 -> velt m x i = gv up A m (k + 1 + i) k).
      { intros i Hi. unfold x, gv. destruct up; [apply row_velt|apply col_velt]; auto. }
      assert (Dx : disjoint (V (k + 1) (k + 1) (N - k - 1) (N - k - 1)) x).
      { unfold x. destruct up; apply (V_disj L A OKA); try (apply inA_V; lia); lia. }
      clearbody x. destruct Ox as (Ix & Wx & Lx).
      assert (Hu : has (gflag up) ARMAS_UPPER = up) by (unfold gflag; destruct up; reflexivity).
      destruct (C21_mvupdate_sym T K HR (e_fuel E) (e_b2 E) (e_opt E) L m (one K) (V (k + 1) (k + 1) (N - k - 1) (N - k - 1)) (opp K (one K)) x (gflag up))
        as (m' & R1 & R2 & R3); auto.
      - unfold gflag. destruct up; reflexivity.
      - intros _. lia.
      - cbn [rows armas_submatrix_unsafe armas_make]. lia.
      - intros a (i & j & Hp & _ & ->). apply L2. exists i, j. auto.
      - exists 0, m'. split; [exact R1|]. rewrite Hu in R2, R3.
        assert (X : forall i j, k < j <= i -> i < N -> gv up A m' i j = gv up A m i j -' gv up A m i k *' gv up A m j k).
        { intros i j Hij Hi.
          assert (Y : forall i' j', intri up i' j' -> 0 <= i' < N - k - 1 -> 0 <= j' < N - k - 1 ->
            elt m' A (k + 1 + i') (k + 1 + j') = elt m A (k + 1 + i') (k + 1 + j') -' gv up A m (k + 1 + i') k *' gv up A m (k + 1 + j') k).
          { intros i' j' Ht Hi' Hj'. assert (P : SpecView.pos (V (k + 1) (k + 1) (N - k - 1) (N - k - 1)) i' j') by (split; auto).
            specialize (R2 i' j' P Ht). rewrite !V_elt, !Vx in R2 by auto. rewrite R2. ring. }
          specialize (Y (if up then j - (k + 1) else i - (k + 1)) (if up then i - (k + 1) else j - (k + 1))).
          unfold gv, intri in *. destruct up.
          - replace (k + 1 + (j - (k + 1))) with j in Y by lia. replace (k + 1 + (i - (k + 1))) with i in Y by lia. rewrite Y by lia. ring.
          - replace (k + 1 + (j - (k + 1))) with j in Y by lia. replace (k + 1 + (i - (k + 1))) with i in Y by lia. rewrite Y by lia. ring. }
        apply HQ; [exact X|]. split.
        + intros i j Hi Hj Hn.
          assert (Y : forall i' j', 0 <= i' < N -> 0 <= j' < N ->
            ~ (k < i' /\ k < j' /\ intri up i' j') -> elt m' A i' j' = elt m A i' j').
          { intros i' j' Hi' Hj' Hnt. apply R3. intros (i2 & j2 & (P1 & P2) & Ht & Ea).
            cbn [rows cols armas_submatrix_unsafe armas_make] in P1, P2.
            change (mad A (i', j') = mad (V (k + 1) (k + 1) (N - k - 1) (N - k - 1)) (i2, j2)) in Ea. rewrite sub_mad in Ea.
            assert (EE : i' = k + 1 + i2 /\ j' = k + 1 + j2).
            { apply (mad_inj A WA) in Ea; [injection Ea as -> ->; auto|unfold mdom, pos; cbn [fst snd]; lia|unfold mdom, pos; cbn [fst snd]; lia]. }
            apply Hnt. destruct EE as (-> & ->). unfold intri in *. destruct up; lia. }
          unfold gv. unfold intri in Y. destruct up; apply Y; auto; lia.
        + intros a Ha _. apply R3. intros (i2 & j2 & Hp & _ & ->). apply Ha. apply (V_in L A OKA _ _ _ _ _ I2). exists i2, j2. auto.
    Qed.

    (* A21 := A21 * tril(A11)^-T or A12 := triu(A11)^-T * A12 *)
    Lemma solve_t : forall (up : bool) k l m (Q : Z -> (Z -> T) -> Prop), 0 <= k -> 0 <= l -> k + l <= N ->
      (forall m', ((forall j, k <= j < k + l -> gv up A m j j <> 0') -> forall i j, k + l <= i < N -> k <= j < k + l ->
           vsum K (j - k + 1) (fun q => gv up A m' i (k + q) *' gv up A m j (k + q)) = gv up A m i j) ->
         t_only up (fun i j => k + l <= i /\ k <= j < k + l) m m' -> Q 0 m') ->
      wp (l_solve_trm K E (if up then V k (k + l) l (N - k - l) else V (k + l) k (N - k - l) l) (one K) (V k k l l) (sflag up)) L m Q.
    Proof.
      intros up k l m Q Hk Hl Hn HQ.
      assert (I1 : inA A k k l l) by (apply inA_V; lia).
      destruct up.
      - apply (solve_any_blk_wp K HF HE E L cb A EO OKA); auto; try (apply inA_V; lia); try lia; try reflexivity.
        { repeat split. }
        intros m' S O. apply HQ.
        + intros Hd i j Hi Hj. assert (Gd : forall q, 0 <= q < l -> elt m A (k + q) (k + q) <> 0').
          { intros q Hq. specialize (Hd (k + q) ltac:(lia)). exact Hd. }
          specialize (S (or_intror Gd) (j - k) (i - (k + l))).
          assert (P : SpecView.pos (V k (k + l) l (N - k - l)) (j - k) (i - (k + l))) by (split; cbn [rows cols armas_submatrix_unsafe armas_make]; lia).
          specialize (S P). change (has (sflag true) ARMAS_RIGHT) with false in S. cbv iota in S.
          change (has (sflag true) ARMAS_UPPER) with true in S. change (has (sflag true) ARMAS_UNIT) with false in S.
          change (has (sflag true) ARMAS_TRANSA) with true in S. change (cols (V k k l l)) with l in S.
          replace l with ((j - k + 1) + (l - (j - k + 1))) in S at 1 by lia. rewrite (vsum_split K HR) in S by lia.
          rewrite (vsum_zero K HR (l - (j - k + 1))) in S.
          2:{ intros q Hq. unfold optri, tri. replace (j - k + 1 + q =? j - k) with false by Lia.lia. replace (j - k + 1 + q <? j - k) with false by Lia.lia. ring. }
          rewrite V_elt in S. replace (k + (j - k)) with j in S by lia. replace (k + l + (i - (k + l))) with i in S by lia.
          unfold gv. transitivity (one K *' elt m A j i); [|ring]. rewrite <- S.
          match goal with |- _ = ?a +' 0' => transitivity a; [|ring] end.
          apply vsum_ext. intros q Hq. unfold optri, tri. rewrite !V_elt. replace (k + (j - k)) with j by lia.
          replace (k + l + (i - (k + l))) with i by lia.
          destruct (q =? j - k) eqn:Eq; [ring|]. replace (q <? j - k) with true by Lia.lia. ring.
        + eapply t_mono; [|apply (blk_t _ _ _ _ _ _ _ O)]. unfold inb. intros i j _ _ Hb. cbv beta iota in Hb. lia.
      - apply (solve_any_blk_wp K HF HE E L cb A EO OKA); auto; try (apply inA_V; lia); try lia; try reflexivity.
        { repeat split. }
        intros m' S O. apply HQ.
        + intros Hd i j Hi Hj. assert (Gd : forall q, 0 <= q < l -> elt m A (k + q) (k + q) <> 0').
          { intros q Hq. specialize (Hd (k + q) ltac:(lia)). exact Hd. }
          specialize (S (or_intror Gd) (i - (k + l)) (j - k)).
          assert (P : SpecView.pos (V (k + l) k (N - k - l) l) (i - (k + l)) (j - k)) by (split; cbn [rows cols armas_submatrix_unsafe armas_make]; lia).
          specialize (S P). change (has (sflag false) ARMAS_RIGHT) with true in S. cbv iota in S.
          change (has (sflag false) ARMAS_UPPER) with false in S. change (has (sflag false) ARMAS_UNIT) with false in S.
          change (has (sflag false) ARMAS_TRANSA) with true in S. change (cols (V k k l l)) with l in S.
          replace l with ((j - k + 1) + (l - (j - k + 1))) in S at 1 by lia. rewrite (vsum_split K HR) in S by lia.
          rewrite (vsum_zero K HR (l - (j - k + 1))) in S.
          2:{ intros q Hq. unfold optri, tri. replace (j - k =? j - k + 1 + q) with false by Lia.lia. replace (j - k + 1 + q <? j - k) with false by Lia.lia. ring. }
          rewrite V_elt in S. replace (k + (j - k)) with j in S by lia. replace (k + l + (i - (k + l))) with i in S by lia.
          unfold gv. transitivity (one K *' elt m A i j); [|ring]. rewrite <- S.
          match goal with |- _ = ?a +' 0' => transitivity a; [|ring] end.
          apply vsum_ext. intros q Hq. unfold optri, tri. rewrite !V_elt. replace (k + (j - k)) with j by lia.
          replace (k + l + (i - (k + l))) with i by lia.
          destruct (j - k =? q) eqn:Eq; [replace q with (j - k) by lia; replace (k + (j - k)) with j by lia; ring|]. replace (q <? j - k) with true by Lia.lia. ring.
        + eapply t_mono; [|apply (blk_t _ _ _ _ _ _ _ O)]. unfold inb. intros i j _ _ Hb. cbv beta iota in Hb. lia.
    Qed.

    (* A22 := A22 - A21*A21^T or A22 - A12^T*A12 *)
    Lemma usym_t : forall (up : bool) k l m (Q : Z -> (Z -> T) -> Prop), 0 <= k -> 0 < l -> k + l < N ->
      (up = true -> has (e_opt E) ARMAS_ONAIVE = false ->
         if e_opt E =? ARMAS_ORECURSIVE then N < e_b2 E
         else NB (armas_cache_setup2 cb (e_mb E) (e_nb E) (e_kb E) (e_p E)) < e_b2 E) ->
      (forall m', (forall i j, k + l <= j <= i -> i < N -> gv up A m' i j = gv up A m i j -' vsum K l (fun q => gv up A m i (k + q) *' gv up A m j (k + q))) ->
         t_only up (fun i j => k + l <= j <= i) m m' -> Q 0 m') ->
      wp (l_update_sym K E (one K) (V (k + l) (k + l) (N - k - l) (N - k - l)) (opp K (one K))
            (if up then V k (k + l) l (N - k - l) else V (k + l) k (N - k - l) l) (uflag up)) L m Q.
    Proof.
      intros up k l m Q Hk Hl Hn Hup HQ. pose proof EO as (E1 & E2 & E3 & E4 & E5 & _).
      assert (I2 : inA A (k + l) (k + l) (N - k - l) (N - k - l)) by (apply inA_V; lia).
      destruct (V_ok L A OKA _ _ _ _ I2) as (W2 & L2).
      set (X := if up then V k (k + l) l (N - k - l) else V (k + l) k (N - k - l) l).
      assert (IX : forall a, cell X a -> cell A a).
      { intros a. unfold X. destruct up; apply (V_in L A OKA); apply inA_V; lia. }
      assert (OX : mok L X) by (unfold X; destruct up; apply (V_ok L A OKA); apply inA_V; lia).
      assert (DX : disjoint (V (k + l) (k + l) (N - k - l) (N - k - l)) X).
      { unfold X. destruct up; apply (V_disj L A OKA); try (apply inA_V; lia); lia. }
      assert (Hu : has (uflag up) ARMAS_UPPER = up) by (unfold uflag; destruct up; reflexivity).
      assert (Ht : has (uflag up) ARMAS_TRANS = up) by (unfold uflag; destruct up; reflexivity).
      assert (XC : opcols X up = l) by (unfold X, opcols; destruct up; reflexivity).
      assert (XR : oprows X up = N - k - l) by (unfold X, oprows; destruct up; reflexivity).
      assert (XE : forall i q, opelt m X up i q = gv up A m (k + l + i) (k + q)).
      { intros i q. unfold X, opelt, gv. destruct up; rewrite V_elt; reflexivity. }
      clearbody X. destruct OX as (WX & LX). unfold l_update_sym. rewrite E5.
      destruct (C67_update_sym_partial T K HR HE (e_fuel E) (e_b2 E) (e_opt E) cb (e_mb E) (e_nb E) (e_kb E) (e_p E) L m (one K)
        (V (k + l) (k + l) (N - k - l) (N - k - l)) (opp K (one K)) X (uflag up)) as (m' & R1 & R2 & R3); auto; rewrite ?Ht, ?Hu in *.
      - intros Hu1 Hu2. specialize (Hup Hu1 Hu2). destruct (e_opt E =? ARMAS_ORECURSIVE); [|exact Hup].
        exists 0, (N - k - l). split; [lia|]. split; [cbn [rows armas_submatrix_unsafe armas_make Z.pow]; lia|lia].
      - split; [reflexivity|]. rewrite Ht, XR. reflexivity.
      - cbn [rows armas_submatrix_unsafe armas_make]. lia.
      - rewrite XC. lia.
      - cbn [rows armas_submatrix_unsafe armas_make]. lia.
      - apply (V_buf E L cb A EO); auto. intros a. apply (V_in L A OKA _ _ _ _ _ I2).
      - exists 0, m'. split; [exact R1|].
        assert (B : blk_only E cb A (k + l) (k + l) (N - k - l) (N - k - l) m m').
        { apply (blk_frame E L cb A EO OKA); auto. }
        assert (Y : forall i j, 0 <= i < N - k - l -> 0 <= j < N - k - l ->
          elt m' A (k + l + i) (k + l + j) = if (if up then i <=? j else j <=? i) then
             elt m A (k + l + i) (k + l + j) -' vsum K l (fun q => gv up A m (k + l + i) (k + q) *' gv up A m (k + l + j) (k + q))
           else elt m A (k + l + i) (k + l + j)).
        { intros i j Hi Hj. assert (P : SpecView.pos (V (k + l) (k + l) (N - k - l) (N - k - l)) i j) by (split; auto).
          specialize (R2 i j P). rewrite !V_elt in R2. rewrite R2. destruct (if up then i <=? j else j <=? i); [|reflexivity].
          rewrite XC. rewrite (vsum_ext K l _ (fun q => gv up A m (k + l + i) (k + q) *' gv up A m (k + l + j) (k + q))); [ring|].
          intros q Hq. rewrite !XE. reflexivity. }
        apply HQ.
        + intros i j Hij Hi. unfold gv at 1 2. destruct up.
          * specialize (Y (j - (k + l)) (i - (k + l)) ltac:(lia) ltac:(lia)). replace (k + l + (j - (k + l))) with j in Y by lia.
            replace (k + l + (i - (k + l))) with i in Y by lia. replace (j - (k + l) <=? i - (k + l)) with true in Y by Lia.lia.
            rewrite Y. f_equal. apply vsum_ext. intros q Hq. ring.
          * specialize (Y (i - (k + l)) (j - (k + l)) ltac:(lia) ltac:(lia)). replace (k + l + (j - (k + l))) with j in Y by lia.
            replace (k + l + (i - (k + l))) with i in Y by lia. replace (j - (k + l) <=? i - (k + l)) with true in Y by Lia.lia.
            exact Y.
        + destruct (blk_t up _ _ _ _ _ _ B) as (B1 & B2). split; [|exact B2]. intros i j Hi Hj Hnot.
          destruct (Z_lt_dec i (k + l)) as [Hl1|Hl1]; [apply B1; auto; unfold inb; destruct up; lia|].
          destruct (Z_lt_dec j (k + l)) as [Hl2|Hl2]; [apply B1; auto; unfold inb; destruct up; lia|].
          unfold gv. destruct up.
          * specialize (Y (j - (k + l)) (i - (k + l)) ltac:(lia) ltac:(lia)). replace (k + l + (j - (k + l))) with j in Y by lia.
            replace (k + l + (i - (k + l))) with i in Y by lia. replace (j - (k + l) <=? i - (k + l)) with false in Y by Lia.lia. exact Y.
          * specialize (Y (i - (k + l)) (j - (k + l)) ltac:(lia) ltac:(lia)). replace (k + l + (j - (k + l))) with j in Y by lia.
            replace (k + l + (i - (k + l))) with i in Y by lia. replace (j - (k + l) <=? i - (k + l)) with false in Y by Lia.lia. exact Y.
    Qed.
  End Ops.

  Section Loops.
    Variables (E : lenv) (L : Z -> bool) (cb : cbuf) (up : bool).

    Lemma gen_unblk_wp : forall A cerr m, env_ok E L cb A -> mok L A -> rows A = cols A ->
      wp (gen_unblk E up A cerr) L m (fun s m' => cstate up (cols A) (cols A) (gv up A m) cerr s (gv up A m') /\
        t_only E cb A up (fun i j => 0 <= j <= i) m m').
    Proof.
      intros A cerr m EO OKA Sq. pose proof OKA as ((Hr & Hc & _) & _). pose proof EO as (_ & _ & F1 & F2 & _).
      unfold gen_unblk. wbind. rewrite part_at.
      apply (wp_down L A 1 more (cols A - 1) _ (fun k s m' => cstate up (cols A) k (gv up A m) cerr s (gv up A m') /\
        t_only E cb A up (fun i j => 0 <= j <= i) m m')); try lia.
      - intros q Hq. rewrite more_iff by exact Hq. lia.
      - split; [|apply t_refl]. left. split; [reflexivity|]. split; [|intros; exfalso; lia].
        intros i j Hij Hi. rewrite Z.min_l by lia. rewrite vsum_0 by lia. replace (j <? 0) with false by Lia.lia. ring.
      - intros k s m1 Hk (HC & HT). replace (Z.min 1 (Z.min (rows A - k) (cols A - k))) with 1 by Lia.lia. cbv zeta.
        cbn [b3at A11 A21 A22 A12]. rewrite Sq.
        wbind. apply (gget_t E L A OKA Sq up); [lia|].
        destruct (okp up (gv up A m1 k k)) eqn:Hok.
        + wbind. apply (gset_t E L cb A EO OKA Sq up); [lia|]. intros m2 D2 (T2 & O2).
          wbind. apply (scale_t E L cb A EO OKA Sq up); [lia|]. intros m3 D3 (T3 & O3).
          wbind. apply (msym_t E L cb A EO OKA Sq up); [lia|]. intros m4 D4 (T4 & O4).
          apply wp_ret. split.
          * apply (one_step up (cols A) k _ cerr s (gv up A m1) (gv up A m4)); auto; try lia.
            -- rewrite T4, T3 by lia. exact D2.
            -- intros i Hi. rewrite T4, D3, T2 by lia. reflexivity.
            -- intros i j Hj Hi. rewrite D4 by lia. rewrite (T4 i k), (T4 j k) by lia. rewrite T3, T2 by lia. reflexivity.
            -- intros i j Hj Hi. rewrite T4, T3, T2 by lia. reflexivity.
          * eapply t_trans; [exact HT|]. split.
            -- intros i j Hi Hj Hn. rewrite T4, T3, T2 by lia. reflexivity.
            -- eapply outb_trans; [exact O2|]. eapply outb_trans; [exact O3|exact O4].
        + apply wp_ret. split; [|exact HT]. apply bad_step; auto. lia.
      - intros q s m1 Hq1 Hq2 (HC & HT). apply wp_ret. cbn [snd]. replace q with (cols A) in HC by Lia.lia. auto.
    Qed.

    Lemma gv_sub : forall A m r n i j, gv up (subm A r r n n) m i j = gv up A m (r + i) (r + j).
    Proof. intros. unfold gv. rewrite !V_elt. reflexivity. Qed.

    (* the unblocked version on a diagonal block *)
    Lemma gen_diag_wp : forall A k l cerr m (Q : Z * Z -> (Z -> T) -> Prop), env_ok E L cb A -> mok L A -> rows A = cols A ->
      0 <= k -> 0 <= l -> k + l <= cols A ->
      (forall u m', cstate up l l (fun i j => gv up A m (k + i) (k + j)) cerr u (fun i j => gv up A m' (k + i) (k + j)) ->
         t_only E cb A up (fun i j => k <= j <= i /\ i < k + l) m m' -> Q u m') ->
      wp (gen_unblk E up (subm A k k l l) cerr) L m Q.
    Proof.
      intros A k l cerr m Q EO OKA Sq Hk Hl Hn HQ. assert (I1 : inA A k k l l) by (repeat split; lia).
      eapply wp_conseq; [apply (gen_unblk_wp (subm A k k l l) cerr m)|].
      - apply V_env; auto.
      - apply V_ok; auto.
      - reflexivity.
      - intros u m' (HC & (T1 & O1)). apply HQ.
        + change (cols (subm A k k l l)) with l in HC. revert HC. apply cstate_ext; intros; apply gv_sub.
        + pose proof (blk_frame E L cb A EO OKA k k l l m m' I1 O1) as B. destruct (blk_t E cb A Sq up _ _ _ _ _ _ B) as (B1 & B2).
          split; [|exact B2]. intros i j Hi Hj Hnot.
          assert (Hin : inb k k l l i j \/ ~ inb k k l l i j) by (unfold inb; lia). unfold inb in *. destruct Hin as [Hin|Hin].
          * specialize (T1 (i - k) (j - k)). rewrite !gv_sub in T1. replace (k + (i - k)) with i in T1 by lia. replace (k + (j - k)) with j in T1 by lia.
            change (cols (subm A k k l l)) with l in T1. apply T1; lia.
          * apply B1; auto. destruct up; lia.
    Qed.

    Lemma gen_blk_wp : forall A lb cerr m, 0 < lb -> env_ok E L cb A -> mok L A -> rows A = cols A ->
      (up = true -> has (e_opt E) ARMAS_ONAIVE = false ->
         if e_opt E =? ARMAS_ORECURSIVE then cols A < e_b2 E
         else NB (armas_cache_setup2 cb (e_mb E) (e_nb E) (e_kb E) (e_p E)) < e_b2 E) ->
      wp (gen_blk E up A lb cerr) L m (fun s m' => cstate up (cols A) (cols A) (gv up A m) cerr s (gv up A m') /\
        t_only E cb A up (fun i j => 0 <= j <= i) m m').
    Proof.
      intros A lb cerr m Hlb EO OKA Sq Hup. pose proof OKA as ((Hr & Hc & _) & _). pose proof EO as (_ & _ & F1 & F2 & _).
      unfold gen_blk. wbind. rewrite part_at.
      apply (wp_down L A lb (more_than lb) (cols A - 1 - lb) _ (fun k s m' => cstate up (cols A) k (gv up A m) cerr s (gv up A m') /\
        t_only E cb A up (fun i j => 0 <= j <= i) m m')); try lia.
      - intros q Hq. rewrite more_than_iff by exact Hq. lia.
      - split; [|apply t_refl]. left. split; [reflexivity|]. split; [|intros; exfalso; lia].
        intros i j Hij Hi. rewrite Z.min_l by lia. rewrite vsum_0 by lia. replace (j <? 0) with false by Lia.lia. ring.
      - intros k s m1 Hk (HC & HT). replace (Z.min lb (Z.min (rows A - k) (cols A - k))) with lb by Lia.lia. cbv zeta.
        cbn [b3at A11 A21 A22 A12]. rewrite Sq.
        wbind. apply (gen_diag_wp A); auto; try lia. intros u m2 HB (T2 & O2).
        wbind. apply (solve_t E L cb A EO OKA Sq up); try lia. intros m3 D3 (T3 & O3).
        wbind. apply (usym_t E L cb A EO OKA Sq up); auto; try lia. intros m4 D4 (T4 & O4).
        apply wp_ret. split.
        + apply (block_step up (cols A) k lb _ cerr s u (gv up A m1) (gv up A m2) (gv up A m4)); auto; try lia.
          * intros i j Hj Hi. rewrite T4, T3, T2 by lia. reflexivity.
          * intros i j Hj Hi. rewrite T4, T3 by lia. reflexivity.
          * intros Hd i j Hi Hj. rewrite <- (T2 i j) by lia. rewrite <- D3 by (auto; lia). apply vsum_ext. intros q Hq. rewrite T4 by lia. reflexivity.
          * intros i j Hj Hi. rewrite D4 by lia. rewrite T3, T2 by lia. f_equal. apply vsum_ext. intros q Hq. rewrite !T4 by lia. reflexivity.
        + eapply t_trans; [exact HT|]. split.
          * intros i j Hi Hj Hn. rewrite T4, T3, T2 by lia. reflexivity.
          * eapply outb_trans; [exact O2|]. eapply outb_trans; [exact O3|exact O4].
      - intros k s m1 Hk1 Hk2 (HC & HT). cbn [fst snd ABR b2at]. cbv zeta. change (rows (subm A k k (rows A - k) (cols A - k))) with (rows A - k).
        rewrite Sq. destruct (cols A - k >? 0) eqn:Eg.
        + wbind. apply (gen_diag_wp A); auto; try Lia.lia. intros u m2 HB (T2 & O2). apply wp_ret. split.
          * replace (cols A) with (k + (cols A - k)) at 2 by lia.
            apply (block_step up (cols A) k (cols A - k) _ cerr s u (gv up A m1) (gv up A m2) (gv up A m2)); auto; try Lia.lia.
            -- intros i j Hj Hi. rewrite T2 by Lia.lia. reflexivity.
          * eapply t_trans; [exact HT|]. split; [|exact O2]. intros i j Hi Hj Hn. apply T2; auto. lia.
        + apply wp_ret. replace k with (cols A) in HC by Lia.lia. auto.
    Qed.
  End Loops.
End C.
