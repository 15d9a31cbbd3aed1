(* Properties_Chol.v: the Cholesky factorization and the solution of linear systems with it (C51). *)
From Coq Require Import ZArith Lia Bool ZifyBool Ring QArith Qcanon Reals.
From Verif Require Import Mem MView SpecView PView PSub Hoare MFlags MBase MCopy PUpd PCopy
  MNum SpecNum MBlas1 PSum PBlas1 PNorm MElem PElem MBlas2 PMvec PBlas2
  PFrame SpecTrm MTrm PTrm MSym PSym MGemm PGemm PMatcpy PMult MTrsm PTrsm MUpdTrm PUpdTrm MLap MChol PLap SpecChol PCholM PChol Inst
  Properties_Copy Properties_Gemm Properties_Trsm Properties_UpdTrm Properties_Lu.
Local Open Scope Z_scope.
Local Open Scope prog_scope.

Ltac lia := nobool; zlia.

(* the matrix of which A holds a triangular factor: L*L^T, or U^T*U when the upper triangle is used *)
Definition chol_elt {T} (K : num T) (up : bool) (m : Z -> T) (A : view) (i j : Z) : T :=
  vsum K (cols A) (fun q => mul K (optri K up false up m A i q) (optri K up false (negb up) m A q j)).

(* A holds the factor of S, with a positive diagonal *)
Definition is_factor {T} (K : num T) (up : bool) (m : Z -> T) (A : view) (S : Z -> Z -> T) : Prop :=
  (forall i j, pos A i j -> chol_elt K up m A i j = S i j) /\
  (forall q, 0 <= q < cols A -> ltb K (zero K) (elt m A q q) = true).

(* the side condition of the blocked upper version (C67): the tiles of the triangle update are
   not split at an odd size *)
Definition upper_ok (E : lenv) (cb : cbuf) (A : view) : Prop :=
  has (e_opt E) ARMAS_ONAIVE = false ->
  if e_opt E =? ARMAS_ORECURSIVE then cols A < e_b2 E
  else NB (armas_cache_setup2 cb (e_mb E) (e_nb E) (e_kb E) (e_p E)) < e_b2 E.

Section P.
  Context {T : Type} (K : num T).
  Hypotheses (HF : is_field K) (HE : eqb_ok K) (HO : is_ordered K) (HS : sqrt_ok K).
  Let HR : is_ring K := Field_theory.F_R HF.
  Let HR' : ring_theory (zero K) (one K) (add K) (mul K) (sub K) (opp K) eq := HR.
  Add Ring KringPC : HR'.

  Lemma sy_sym : forall up (m : Z -> T) A i j, sy (gv up A m) i j = sym up m A i j.
  Proof.
    intros up m A i j. unfold sy, gv, sym. destruct up; [|reflexivity].
    destruct (j <=? i) eqn:E1, (i <=? j) eqn:E2; auto; [|exfalso; Lia.lia]. replace j with i by Lia.lia. reflexivity.
  Qed.

  Lemma pd_ext : forall n (s s' : Z -> Z -> T), (forall i j, s i j = s' i j) -> pos_def K n s -> pos_def K n s'.
  Proof.
    intros n s s' H HP x Hx. rewrite <- (HP x Hx). f_equal. unfold quad. apply vsum_ext. intros i Hi. apply vsum_ext. intros j Hj. rewrite H. reflexivity.
  Qed.

  Lemma pd_sy : forall up n m A, pos_def K n (sym up m A) <-> pos_def K n (sy (gv up A m)).
  Proof. intros. split; apply pd_ext; intros; [symmetry|]; apply sy_sym. Qed.

  Lemma opt_low : forall up m A i q, optri K up false up m A i q = low K (gv up A m) i q.
  Proof.
    intros. unfold optri, tri, low, gv. destruct up.
    - destruct (q =? i) eqn:E1; [replace (q <=? i) with true by Lia.lia; reflexivity|].
      destruct (q <? i) eqn:E2; [replace (q <=? i) with true by Lia.lia|replace (q <=? i) with false by Lia.lia]; reflexivity.
    - destruct (i =? q) eqn:E1; [replace (q <=? i) with true by Lia.lia; reflexivity|].
      destruct (q <? i) eqn:E2; [replace (q <=? i) with true by Lia.lia|replace (q <=? i) with false by Lia.lia]; reflexivity.
  Qed.

  Lemma opt_low_t : forall up m A q j, optri K up false (negb up) m A q j = low K (gv up A m) j q.
  Proof. intros. rewrite <- opt_low. unfold optri. destruct up; reflexivity. Qed.

  Lemma schur_factor : forall up (a : Z -> Z -> T) m A, 0 <= cols A -> rows A = cols A -> schur K (cols A) (cols A) a (gv up A m) ->
    is_factor K up m A (sy a).
  Proof.
    intros up a m A Hn Sq S. split.
    - intros i j (Hi & Hj). rewrite (schur_sy K HF (cols A) (cols A) a (gv up A m) Hn S i j) by lia.
      replace ((cols A <=? i) && (cols A <=? j)) with false by Lia.lia.
      transitivity (vsum K (cols A) (fun p => mul K (low K (gv up A m) i p) (low K (gv up A m) j p))); [|ring].
      apply vsum_ext. intros q Hq. rewrite opt_low, opt_low_t. reflexivity.
    - intros q Hq. destruct S as (_ & S). specialize (S q Hq ltac:(lia)). unfold gv in S. destruct up; exact S.
  Qed.

  Lemma factor_schur : forall up (a : Z -> Z -> T) m A, 0 <= cols A -> rows A = cols A -> is_factor K up m A (sy a) ->
    schur K (cols A) (cols A) a (gv up A m).
  Proof.
    intros up a m A Hn Sq (H1 & H2). split.
    - intros i j Hj Hi. assert (P : SpecView.pos A i j) by (split; lia). specialize (H1 i j P).
      unfold sy in H1. replace (j <=? i) with true in H1 by Lia.lia. rewrite <- H1. replace (j <? cols A) with true by Lia.lia.
      rewrite Z.min_r by lia. unfold chol_elt. replace (cols A) with ((j + 1) + (cols A - (j + 1))) at 1 by lia.
      rewrite (vsum_split K HR (j + 1)) by lia. rewrite (vsum_zero K HR (cols A - (j + 1))).
      + f_equal. apply vsum_ext. intros q Hq. rewrite opt_low, opt_low_t. unfold low.
        replace (q <=? i) with true by Lia.lia. replace (q <=? j) with true by Lia.lia. reflexivity.
      + intros q Hq. rewrite opt_low_t. unfold low. replace (j + 1 + q <=? j) with false by Lia.lia. ring.
    - intros q Hq _. specialize (H2 q Hq). unfold gv. destruct up; exact H2.
  Qed.

  Lemma factor_ext : forall up m A (s s' : Z -> Z -> T), (forall i j, s i j = s' i j) -> is_factor K up m A s -> is_factor K up m A s'.
  Proof. intros up m A s s' H (H1 & H2). split; [|exact H2]. intros i j P. rewrite <- H. apply H1, P. Qed.

  (* what the two versions have in common *)
  Definition chol_post (E : lenv) (cb : cbuf) (up : bool) (A : view) (ce : Z) (m : Z -> T) (s : Z * Z) (m' : Z -> T) : Prop :=
    (pos_def K (cols A) (sym up m A) -> s = (0, ce) /\ is_factor K up m' A (sym up m A)) /\
    (fst s <> 0 -> fst s = -1 /\ badcode up (snd s) /\ ~ pos_def K (cols A) (sym up m A)) /\
    (fst s = 0 -> snd s = ce /\ (is_factor K up m' A (sym up m A) /\ pos_def K (cols A) (sym up m A) \/
       up = false /\ exists q, 0 <= q < cols A /\ elt m' A q q = zero K)) /\
    (forall i j, pos A i j -> ~ intri up i j -> elt m' A i j = elt m A i j) /\
    (forall a, ~ cell A a -> ~ inbuf cb (e_p E) a -> m' a = m a).

  Lemma cstate_post : forall E cb up A ce m s m', wf A -> rows A = cols A -> cstate K up (cols A) (cols A) (gv up A m) ce s (gv up A m') ->
    t_only E cb A up (fun i j => 0 <= j <= i) m m' -> chol_post E cb up A ce m s m'.
  Proof.
    intros E cb up A ce m s m' (Hr & Hc & _) Sq HC (HT & O). unfold chol_post. rewrite pd_sy.
    assert (G : schur K (cols A) (cols A) (gv up A m) (gv up A m') -> is_factor K up m' A (sym up m A) /\ pos_def K (cols A) (sy (gv up A m))).
    { intros S. split; [|apply (schur_pd K HF HO (cols A) (gv up A m) (gv up A m')); auto].
      apply (factor_ext _ _ _ (sy (gv up A m))); [intros; apply sy_sym|]. apply schur_factor; auto. }
    split; [|split; [|split; [|split; [|exact O]]]].
    - intros HP. destruct HC as [(Hs & S)|(NP & _)]; [|contradiction]. split; [exact Hs|]. apply G. exact S.
    - intros Hs. destruct HC as [(-> & S)|(NP & [(B1 & B2)|(_ & -> & _)])]; [cbn in Hs; congruence|auto|cbn in Hs; congruence].
    - intros Hs. destruct HC as [(-> & S)|(NP & [(B1 & B2)|(B1 & -> & q & Hq & B2)])].
      + split; [reflexivity|]. left. apply G. exact S.
      + rewrite B1 in Hs. discriminate.
      + split; [reflexivity|]. right. split; [exact B1|]. exists q. split; [exact Hq|]. unfold gv in B2. destruct up; exact B2.
    - intros i j (Hi & Hj) Hn. unfold intri, gv in *. destruct up.
      + apply HT; lia.
      + apply HT; lia.
  Qed.

  Lemma cholesky_wp : forall E L cb A flags ce m, 0 <= e_lb E -> env_ok E L cb A -> wf A -> allocated L A -> rows A = cols A ->
    (has flags ARMAS_LOWER = false -> 0 < e_lb E < cols A -> upper_ok E cb A) ->
    wp (armas_cholesky K E A flags ce) L m (fun s m' => chol_post E cb (negb (has flags ARMAS_LOWER)) A ce m s m').
  Proof.
    intros E L cb A flags ce m Hlb EO WA LA Sq Hu. assert (OKA : mok L A) by (split; auto).
    unfold armas_cholesky. replace (negb (rows A =? cols A)) with false by (symmetry; Lia.lia).
    destruct (lower_gen K E) as (-> & ->). destruct (upper_gen K E) as (-> & ->).
    apply wp_if; intros EL.
    - apply wp_if; intros EF; rewrite EF; cbn [negb];
        (eapply wp_conseq; [apply (gen_unblk_wp K HF HO HS E L cb); auto|]); intros s m' (HC & HT); apply cstate_post; auto.
    - apply wp_if; intros EF; rewrite EF; cbn [negb];
        (eapply wp_conseq; [apply (gen_blk_wp K HF HE HO HS E L cb); auto|]); try (intros s m' (HC & HT); apply cstate_post; auto); try Lia.lia; try discriminate.
      intros _. apply Hu; [exact EF|Lia.lia].
  Qed.
End P.

(* the lower version *)
Theorem C51_cholesky_lower : forall T (K : num T), is_field K -> eqb_ok K -> is_ordered K -> sqrt_ok K ->
  forall (E : lenv) L cb A flags ce m, 0 <= e_lb E -> env_ok E L cb A -> wf A -> allocated L A -> rows A = cols A ->
  has flags ARMAS_LOWER = true ->
  exists r ce' m', armas_cholesky K E A flags ce L m = Some ((r, ce'), m') /\
    (* a positive definite matrix is factored *)
    (pos_def K (cols A) (sym false m A) -> r = 0 /\ ce' = ce /\ is_factor K false m' A (sym false m A)) /\
    (* an error means that it is not positive definite *)
    (r <> 0 -> r = -1 /\ ce' = ARMAS_ENEGATIVE /\ ~ pos_def K (cols A) (sym false m A)) /\
    (* success means that it is, and that it has been factored, unless there is a zero on the diagonal *)
    (r = 0 -> (forall q, 0 <= q < cols A -> elt m' A q q <> zero K) ->
       is_factor K false m' A (sym false m A) /\ pos_def K (cols A) (sym false m A)) /\
    (* nothing but the triangle and the buffer is changed *)
    (forall i j, pos A i j -> i < j -> elt m' A i j = elt m A i j) /\
    (forall a, ~ cell A a -> ~ inbuf cb (e_p E) a -> m' a = m a).
Proof.
  intros T K HF HE HO HS E L cb A flags ce m Hlb EO WA LA Sq Hfl.
  destruct (cholesky_wp K HF HE HO HS E L cb A flags ce m) as ((r & ce') & m' & R & P1 & P2 & P3 & P4 & P5); auto; [congruence|].
  rewrite Hfl in *. cbn [negb fst snd] in *. exists r, ce', m'. split; [exact R|]. split; [|split; [|split; [|split; [|exact P5]]]].
  - intros HP. destruct (P1 HP) as (H1 & H2). injection H1 as -> ->. auto.
  - intros Hr. destruct (P2 Hr) as (H1 & [H2|(H2 & _)] & H3); [auto|discriminate].
  - intros Hr Hd. destruct (P3 Hr) as (_ & [H|(_ & q & Hq & H)]); [exact H|]. exfalso. exact (Hd q Hq H).
  - intros i j Hp Hij. apply P4; auto. unfold intri. lia.
Qed.
Print Assumptions C51_cholesky_lower.

(* the upper version.  Missing: blocked versions for which upper_ok does not hold (see C67). *)
Theorem C51_cholesky_upper_partial : forall T (K : num T), is_field K -> eqb_ok K -> is_ordered K -> sqrt_ok K ->
  forall (E : lenv) L cb A flags ce m, 0 <= e_lb E -> env_ok E L cb A -> wf A -> allocated L A -> rows A = cols A ->
  has flags ARMAS_LOWER = false -> (0 < e_lb E < cols A -> upper_ok E cb A) ->
  exists r ce' m', armas_cholesky K E A flags ce L m = Some ((r, ce'), m') /\
    (pos_def K (cols A) (sym true m A) -> r = 0 /\ ce' = ce /\ is_factor K true m' A (sym true m A)) /\
    (r <> 0 -> r = -1 /\ (ce' = ARMAS_ENEGATIVE \/ ce' = ARMAS_ESINGULAR) /\ ~ pos_def K (cols A) (sym true m A)) /\
    (r = 0 -> is_factor K true m' A (sym true m A) /\ pos_def K (cols A) (sym true m A)) /\
    (forall i j, pos A i j -> j < i -> elt m' A i j = elt m A i j) /\
    (forall a, ~ cell A a -> ~ inbuf cb (e_p E) a -> m' a = m a).
Proof.
  intros T K HF HE HO HS E L cb A flags ce m Hlb EO WA LA Sq Hfl Hup.
  destruct (cholesky_wp K HF HE HO HS E L cb A flags ce m) as ((r & ce') & m' & R & P1 & P2 & P3 & P4 & P5); auto.
  rewrite Hfl in *. cbn [negb fst snd] in *. exists r, ce', m'. split; [exact R|]. split; [|split; [|split; [|split; [|exact P5]]]].
  - intros HP. destruct (P1 HP) as (H1 & H2). injection H1 as -> ->. auto.
  - intros Hr. destruct (P2 Hr) as (H1 & [H2|(_ & H2)] & H3); auto.
  - intros Hr. destruct (P3 Hr) as (_ & [H|(H & _)]); [exact H|discriminate].
  - intros i j Hp Hij. apply P4; auto. unfold intri. lia.
Qed.
Print Assumptions C51_cholesky_upper_partial.

(* there is only one factor with a positive diagonal, whichever way it is computed *)
Theorem C51_unique : forall T (K : num T), is_field K -> eqb_ok K -> is_ordered K ->
  forall up A (m m' : Z -> T) S, wf A -> rows A = cols A -> is_factor K up m A S -> is_factor K up m' A S ->
  forall i j, pos A i j -> intri up i j -> elt m A i j = elt m' A i j.
Proof.
  intros T K HF HE HO up A m m' S (Hr & Hc & _) Sq F1 F2 i j (Hi & Hj) Ht.
  set (a := fun i j => chol_elt K up m A i j).
  assert (HR : is_ring K) by exact (Field_theory.F_R HF).
  assert (Y : forall i j, pos A i j -> S i j = sy a i j).
  { intros p q (Hp & Hq). destruct F1 as (F1 & _). unfold sy, a. destruct (q <=? p); rewrite <- F1 by (split; lia); auto.
    unfold chol_elt. apply vsum_ext. intros k Hk. rewrite !opt_low, !opt_low_t. apply (Ring_theory.Rmul_comm HR). }
  assert (G1 : is_factor K up m A (sy a)) by (destruct F1 as (X1 & X2); split; auto; intros; rewrite <- Y; auto).
  assert (G2 : is_factor K up m' A (sy a)) by (destruct F2 as (X1 & X2); split; auto; intros; rewrite <- Y; auto).
  apply (factor_schur K HF) in G1; auto. apply (factor_schur K HF) in G2; auto.
  pose proof (schur_unique K HF HO (cols A) a (gv up A m) (gv up A m') HE G1 G2) as U.
  unfold gv, intri in *. destruct up; apply U; lia.
Qed.
Print Assumptions C51_unique.

(* a matrix that is not square is refused and nothing is touched *)
Theorem C51_size : forall T (K : num T) E L A flags ce m, rows A <> cols A ->
  armas_cholesky K E A flags ce L m = Some ((- ARMAS_ESIZE, ARMAS_ESIZE), m).
Proof. intros T K E L A flags ce m H. unfold armas_cholesky. replace (negb (rows A =? cols A)) with true by (symmetry; Lia.lia). reflexivity. Qed.
Print Assumptions C51_size.

(* ---- solving a system ---- *)
Section S.
  Context {T : Type} (K : num T).
  Hypotheses (HF : is_field K) (HE : eqb_ok K).
  Let HR : is_ring K := Field_theory.F_R HF.
  Let HR' : ring_theory (zero K) (one K) (add K) (mul K) (sub K) (opp K) eq := HR.
  Add Ring KringCS : HR'.
  Variables (E : lenv) (L : Z -> bool) (cb : cbuf).

  Lemma cholsolve_wp : forall B A flags m, env_ok E L cb B -> buf_ok L cb (e_mb E) (e_nb E) (e_kb E) (e_p E) B A A ->
    mok L B -> mok L A -> disjoint B A -> rows A = cols A -> rows B = cols A ->
    (forall i, 0 <= i < cols A -> elt m A i i <> zero K) ->
    wp (armas_cholsolve K E B A flags) L m (fun r m' => r = 0 /\
      (forall i j, pos B i j -> vsum K (cols A) (fun k => mul K (chol_elt K (negb (has flags ARMAS_LOWER)) m A i k) (elt m' B k j)) = elt m B i j) /\
      outb cb (e_p E) B m m').
  Proof.
    intros B A flags m EO BO OKB OKA D Sq En ND. unfold armas_cholsolve.
    replace (negb ((rows B =? cols A) && (rows A =? cols A))) with false by (symmetry; Lia.lia). wbind.
    set (up := negb (has flags ARMAS_LOWER)).
    assert (X : wp (if has flags ARMAS_LOWER then
         l_solve_trm K E B (one K) A (Z.lor ARMAS_LEFT ARMAS_LOWER) ;;
         l_solve_trm K E B (one K) A (Z.lor ARMAS_LEFT (Z.lor ARMAS_LOWER ARMAS_TRANSA))
       else
         l_solve_trm K E B (one K) A (Z.lor ARMAS_LEFT (Z.lor ARMAS_UPPER ARMAS_TRANSA)) ;;
         l_solve_trm K E B (one K) A (Z.lor ARMAS_LEFT ARMAS_UPPER)) L m (fun _ m3 => exists m2,
       solves_trm K false up false up m m2 (one K) A B /\ solves_trm K false up false (negb up) m2 m3 (one K) A B /\
       outb cb (e_p E) B m m2 /\ outb cb (e_p E) B m2 m3)).
    { unfold up. apply wp_if; intros EF; rewrite EF; cbn [negb].
      - wbind. apply (solve_wp K HF HE E L cb B A); auto; try reflexivity; [repeat split|]. intros m2 V2 O2.
        assert (T2 := outb_tri E L cb B A m m2 BO D O2).
        apply (solve_wp K HF HE E L cb B A); auto; try reflexivity; [repeat split| |].
        { right. intros i Hi. rewrite T2 by (split; lia). apply ND; auto. }
        intros m3 V3 O3. exists m2. split; [exact V2|]. split; [exact V3|]. auto.
      - wbind. apply (solve_wp K HF HE E L cb B A); auto; try reflexivity; [repeat split|]. intros m2 V2 O2.
        assert (T2 := outb_tri E L cb B A m m2 BO D O2).
        apply (solve_wp K HF HE E L cb B A); auto; try reflexivity; [repeat split| |].
        { right. intros i Hi. rewrite T2 by (split; lia). apply ND; auto. }
        intros m3 V3 O3. exists m2. split; [exact V2|]. split; [exact V3|]. auto. }
    eapply wp_conseq; [exact X|]. clear X. clearbody up. intros _ m3 (m2 & V2 & V3 & O2 & O3). apply wp_ret. split; [reflexivity|].
    split; [|eapply outb_trans; eauto]. intros i j Hp. pose proof Hp as (Hi & Hj). assert (T2 := outb_tri E L cb B A m m2 BO D O2).
    transitivity (mul K (one K) (elt m B i j)); [|ring]. rewrite <- (V2 i j Hp). cbv iota. unfold chol_elt.
    transitivity (vsum K (cols A) (fun k => vsum K (cols A) (fun q => mul K (optri K up false up m A i q) (mul K (optri K up false (negb up) m A q k) (elt m3 B k j))))).
    { apply vsum_ext. intros k Hk. rewrite <- (vsum_mul_r K HR). apply vsum_ext. intros q Hq. ring. }
    rewrite (vsum_swap K HR). apply vsum_ext. intros q Hq. rewrite (vsum_mul_l K HR). f_equal.
    transitivity (mul K (one K) (elt m2 B q j)); [|ring]. rewrite <- (V3 q j) by (split; lia). cbv iota. apply vsum_ext. intros k Hk.
    f_equal. unfold optri, tri. destruct (negb up); rewrite T2 by (split; lia); reflexivity.
  Qed.
End S.

(* with a factor in A the solution of  L*L^T*X = B  or  U^T*U*X = B  is computed *)
Theorem C51_cholsolve : forall T (K : num T), is_field K -> eqb_ok K ->
  forall (E : lenv) L cb B A flags m, env_ok E L cb B -> buf_ok L cb (e_mb E) (e_nb E) (e_kb E) (e_p E) B A A ->
  wf B -> wf A -> allocated L B -> allocated L A -> disjoint B A -> rows A = cols A -> rows B = cols A ->
  (forall i, 0 <= i < cols A -> elt m A i i <> zero K) ->
  exists m', armas_cholsolve K E B A flags L m = Some (0, m') /\
    (forall i j, pos B i j ->
       vsum K (cols A) (fun k => mul K (chol_elt K (negb (has flags ARMAS_LOWER)) m A i k) (elt m' B k j)) = elt m B i j) /\
    (forall a, ~ cell B a -> ~ inbuf cb (e_p E) a -> m' a = m a).
Proof.
  intros T K HF HE E L cb B A flags m EO BO WB WA LB LA D Sq En ND.
  destruct (cholsolve_wp K HF HE E L cb B A flags m) as (r & m' & R & -> & V & O); auto; try (split; auto). exists m'. auto.
Qed.
Print Assumptions C51_cholsolve.

(* the two calls together solve every system with a positive definite matrix *)
Theorem C51_system : forall T (K : num T), is_field K -> eqb_ok K -> is_ordered K -> sqrt_ok K ->
  forall (E : lenv) L cb B A flags ce m, 0 <= e_lb E -> env_ok E L cb A -> env_ok E L cb B ->
  buf_ok L cb (e_mb E) (e_nb E) (e_kb E) (e_p E) B A A ->
  wf B -> wf A -> allocated L B -> allocated L A -> disjoint B A -> rows A = cols A -> rows B = cols A ->
  let up := negb (has flags ARMAS_LOWER) in
  (up = true -> 0 < e_lb E < cols A -> upper_ok E cb A) ->
  pos_def K (cols A) (sym up m A) ->
  exists m1 m2, armas_cholesky K E A flags ce L m = Some ((0, ce), m1) /\ armas_cholsolve K E B A flags L m1 = Some (0, m2) /\
    (forall i j, pos B i j -> vsum K (cols A) (fun k => mul K (sym up m A i k) (elt m2 B k j)) = elt m B i j).
Proof.
  intros T K HF HE HO HS E L cb B A flags ce m Hlb EA EB BO WB WA LB LA D Sq En up Hup HP.
  destruct (cholesky_wp K HF HE HO HS E L cb A flags ce m) as (s & m1 & R & P1 & _ & _ & _ & P5); auto.
  { intros Hf. apply Hup. unfold up. rewrite Hf. reflexivity. }
  fold up in P1. destruct (P1 HP) as (-> & F1 & F2).
  destruct (C51_cholsolve T K HF HE E L cb B A flags m1) as (m2 & R2 & V & _); auto.
  { intros i Hi. apply (o_ne K HO). apply F2. exact Hi. }
  exists m1, m2. split; [exact R|]. split; [exact R2|]. intros i j (Hi & Hj). fold up in V.
  assert (TB : elt m1 B i j = elt m B i j).
  { assert (C : cell B (elems B + j * step B + i)) by (exists i, j; repeat split; lia).
    unfold elt. apply P5; [intros C'; exact (D _ C C')|]. intros Hb. destruct EB as (_ & _ & _ & _ & _ & _ & _ & _ & _ & _ & _ & _ & _ & _ & HB & _).
    destruct (HB _ Hb) as (_ & X & _). auto. }
  rewrite <- TB, <- V by (split; auto). apply vsum_ext. intros k Hk. rewrite F1 by (split; lia). reflexivity.
Qed.
Print Assumptions C51_system.

(* sizes that do not fit are refused *)
Theorem C51_cholsolve_size : forall T (K : num T) E L B A flags m, ~ (rows B = cols A /\ rows A = cols A) ->
  armas_cholsolve K E B A flags L m = Some (-1, m).
Proof.
  intros T K E L B A flags m H. unfold armas_cholsolve. replace (negb ((rows B =? cols A) && (rows A =? cols A))) with true by (symmetry; Lia.lia). reflexivity.
Qed.
Print Assumptions C51_cholsolve_size.

(* a zero pivot is not reported by the lower version: [0 1; 1 1] has no factor.  The square roots
   taken are those of 0 and 1, which sqrt of Qcnum gets right, and 1/0 is 0 in Qcnum. *)
Definition ch_zero (a : Z) : Qc := Q2Qc (inject_Z (if a =? 200 then 0 else 1)).

Theorem C51_zero_pivot_refuted : exists E L cb A m, env_ok E L cb A /\ wf A /\ allocated L A /\ rows A = cols A /\
  exists m', armas_cholesky Qcnum E A ARMAS_LOWER 0 L m = Some ((0, 0), m') /\
    (exists i j, pos A i j /\ chol_elt Qcnum false m' A i j <> sym false m A i j) /\ ~ pos_def Qcnum (cols A) (sym false m A).
Proof.
  destruct (lu_env 64 2 2) as (H1 & H2 & H3); try lia.
  exists (lu_E 64), cp_L, ge_cb, (lu_A 2 2), ch_zero. repeat (split; [first [assumption|reflexivity]|]).
  assert (W : match armas_cholesky Qcnum (lu_E 64) (lu_A 2 2) ARMAS_LOWER 0 cp_L ch_zero with
    | Some (s, m') => s = (0, 0) /\ chol_elt Qcnum false m' (lu_A 2 2) 1 0 <> sym false ch_zero (lu_A 2 2) 1 0 | None => False end).
  { vm_compute. split; [reflexivity|discriminate]. }
  destruct (armas_cholesky _ _ _ _ _ _ _) as [[s m']|] eqn:R; [|contradiction]. destruct W as (-> & W).
  exists m'. split; [reflexivity|]. split; [exists 1, 0; split; [split; cbn; lia|exact W]|].
  intros HP. specialize (HP (fun i => if i =? 0 then 1%Qc else 0%Qc)).
  assert (X : ltb Qcnum (zero Qcnum) (quad Qcnum (cols (lu_A 2 2)) (sym false ch_zero (lu_A 2 2)) (fun i => if i =? 0 then 1%Qc else 0%Qc)) = false)
    by (vm_compute; reflexivity).
  rewrite HP in X; [discriminate|]. exists 0. split; [cbn; lia|]. discriminate.
Qed.
Print Assumptions C51_zero_pivot_refuted.

(* the matrix min(i,j)+1 of size five, whose factor is the triangle of ones *)
Definition ch_m (a : Z) : R := IZR (Z.min ((a - 200) / 7) ((a - 200) mod 7) + 1).

Lemma ch_elt : forall i j, 0 <= i < 5 -> 0 <= j < 5 -> elt ch_m (lu_A 5 5) i j = IZR (Z.min i j + 1).
Proof.
  intros i j Hi Hj. unfold elt, ch_m, lu_A. cbn [elems step]. replace (200 + j * 7 + i - 200) with (i + j * 7) by lia.
  rewrite Z.div_add, Z.mod_add, Z.div_small, Z.mod_small by lia. f_equal. Lia.lia.
Qed.

Lemma ch_ones : forall n, 0 <= n -> vsum Rnum n (fun _ => Rmult 1 1) = IZR n.
Proof.
  apply (vsum_ind (fun n => vsum Rnum n (fun _ => Rmult 1 1) = IZR n)); [reflexivity|].
  intros n Hn IH. rewrite vsum_S by lia. rewrite IH. cbn [add Rnum]. rewrite plus_IZR. rewrite Rmult_1_l. reflexivity.
Qed.

Lemma ch_pd : forall up, pos_def Rnum 5 (sym up ch_m (lu_A 5 5)).
Proof.
  intros up. apply pd_sy. apply (schur_pd Rnum R_field R_ordered 5 _ (fun _ _ => 1%R) R_eqb); [lia|]. split.
  - intros i j Hj Hi. replace (j <? 5) with true by Lia.lia. rewrite Z.min_r by lia. cbn [add mul zero Rnum]. rewrite ch_ones by lia.
    unfold gv. destruct up; rewrite ch_elt by lia; rewrite ?Z.min_l, ?Z.min_r by lia; rewrite Rplus_0_r; reflexivity.
  - intros j Hj _. apply (o_one Rnum R_field R_ordered).
Qed.

Example C51_nonvacuous : forall flags lb, flags = ARMAS_LOWER \/ flags = ARMAS_UPPER -> lb = 0 \/ lb = 2 ->
  exists m', armas_cholesky Rnum (lu_E lb) (lu_A 5 5) flags 0 cp_L ch_m = Some ((0, 0), m') /\
    is_factor Rnum (negb (has flags ARMAS_LOWER)) m' (lu_A 5 5) (sym (negb (has flags ARMAS_LOWER)) ch_m (lu_A 5 5)).
Proof.
  intros flags lb Hf Hlb. destruct (lu_env lb 5 5) as (H1 & H2 & H3); try lia.
  assert (0 <= e_lb (lu_E lb)) by (destruct Hlb; subst; cbn; lia).
  destruct Hf; subst flags.
  - destruct (C51_cholesky_lower R Rnum R_field R_eqb R_ordered R_sqrt_ok (lu_E lb) cp_L ge_cb (lu_A 5 5) ARMAS_LOWER 0 ch_m) as (r & ce & m' & R1 & R2 & _); auto.
    destruct (R2 (ch_pd false)) as (-> & -> & F). exists m'. split; [exact R1|exact F].
  - destruct (C51_cholesky_upper_partial R Rnum R_field R_eqb R_ordered R_sqrt_ok (lu_E lb) cp_L ge_cb (lu_A 5 5) ARMAS_UPPER 0 ch_m) as (r & ce & m' & R1 & R2 & _); auto.
    { intros _ _. vm_compute. reflexivity. }
    destruct (R2 (ch_pd true)) as (-> & -> & F). exists m'. split; [exact R1|exact F].
Qed.

(* the factor it computes is the triangle of ones *)
Example C51_unique_nonvacuous : forall up m', is_factor Rnum up m' (lu_A 5 5) (sym up ch_m (lu_A 5 5)) ->
  forall i j, 0 <= i < 5 -> 0 <= j < 5 -> intri up i j -> elt m' (lu_A 5 5) i j = 1%R.
Proof.
  intros up m' F i j Hi Hj Ht. destruct (lu_env 0 5 5) as (_ & W & _); try lia.
  rewrite (C51_unique R Rnum R_field R_eqb R_ordered up (lu_A 5 5) m' (fun _ => 1%R) _ W eq_refl F); auto; [|split; auto].
  apply (factor_ext Rnum up _ _ (sy (gv up (lu_A 5 5) ch_m))); [intros; apply sy_sym|].
  apply (schur_factor Rnum R_field); [cbn; lia|reflexivity|]. split.
  - cbn [cols lu_A]. intros p q Hq Hp. replace (q <? 5) with true by Lia.lia. rewrite Z.min_r by lia.
    transitivity (add Rnum (vsum Rnum (q + 1) (fun _ => Rmult 1 1)) 0%R).
    + rewrite ch_ones by lia. unfold gv. destruct up; rewrite ch_elt by lia; rewrite ?Z.min_l, ?Z.min_r by lia; cbn [add Rnum]; rewrite Rplus_0_r; reflexivity.
    + f_equal. apply vsum_ext. intros k Hk. unfold gv, elt. destruct up; reflexivity.
  - intros q Hq _. unfold gv, elt. destruct up; apply (o_one Rnum R_field R_ordered).
Qed.
