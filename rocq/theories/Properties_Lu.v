(* Properties_Lu.v: the LU factorization and the solution of linear systems with it (C49, C50, C66). *)
From Coq Require Import ZArith Lia Bool ZifyBool QArith Qcanon.
From Verif Require Import Mem MView SpecView PView PSub Hoare MFlags MBase MCopy PUpd PCopy
  MNum SpecNum MBlas1 PSum PBlas1 PNorm MElem PElem SpecPivot MPivot PPivot MBlas2 PMvec PBlas2
  PFrame SpecTrm MTrm PTrm MGemm PGemm PMatcpy PMult MTrsm PTrsm MLap MLu PLap PLu PLuPiv Inst
  Properties_Copy Properties_Pivot Properties_Gemm Properties_Trsm.
Local Open Scope Z_scope.
Local Open Scope prog_scope.

Ltac lia := nobool; zlia.
Notation subm := armas_submatrix_unsafe.

(* element (i,j) of the product of the unit lower and the upper triangle stored in A *)
Definition lu_elt {T} (K : num T) (m : Z -> T) (A : view) (i j : Z) : T :=
  vsum K (Z.min (rows A) (cols A)) (fun q => mul K (optri K false true false m A i q) (optri K true false false m A q j)).

(* ---- without pivoting ---- *)
Theorem C49_lufactor_nopiv : forall T (K : num T), is_field K -> eqb_ok K ->
  forall (E : lenv) L cb A (l u : Z -> Z -> T) m, 0 <= e_lb E -> env_ok E L cb A -> wf A -> allocated L A ->
  (forall i q, 0 <= i -> i < q -> l i q = zero K) -> (forall i, 0 <= i < Z.min (rows A) (cols A) -> l i i = one K) ->
  (forall q j, 0 <= j -> j < q -> u q j = zero K) -> (forall q, 0 <= q < Z.min (rows A - 1) (cols A) -> u q q <> zero K) ->
  (forall i j, pos A i j -> elt m A i j = vsum K (Z.min (rows A) (cols A)) (fun q => mul K (l i q) (u q j))) ->
  exists m', armas_lufactor_nopiv K E A L m = Some (0, m') /\
    (forall i j, pos A i j -> elt m' A i j = if j <? i then l i j else u i j) /\
    (forall i j, pos A i j -> lu_elt K m' A i j = elt m A i j) /\
    (forall a, ~ cell A a -> ~ inbuf cb (e_p E) a -> m' a = m a).
Proof.
  intros T K HF HE E L cb A l u m Hlb EO WA LA T1 T2 T3 T4 H0.
  assert (HT : triangles K (rows A) (cols A) l u) by (repeat split; auto).
  assert (X : wp (armas_lufactor_nopiv K E A) L m (fun r m' => r = 0 /\
        (forall i j, pos A i j -> elt m' A i j = stored l u i j) /\ outb cb (e_p E) A m m')).
  { unfold armas_lufactor_nopiv. apply wp_if; intros EL.
    - apply (unblk_nopiv_wp K HF); auto. split; auto.
    - apply (blk_nopiv_wp K HF HE); auto; [lia|split; auto]. }
  destruct X as (r & m' & R & -> & S & O). exists m'. split; [exact R|]. split; [exact S|]. split; [|exact O].
  intros i j (Hi & Hj). rewrite H0 by (split; auto). unfold lu_elt. apply vsum_ext. intros q Hq. f_equal; unfold optri, tri.
  - destruct (i =? q) eqn:E1; [replace q with i by lia; symmetry; apply T2; lia|]. destruct (q <? i) eqn:E2; [|symmetry; apply T1; lia].
    rewrite S by (split; lia). unfold stored. rewrite E2. reflexivity.
  - destruct (q =? j) eqn:E1; [|destruct (q <? j) eqn:E2]; [| |symmetry; apply T3; lia];
      rewrite S by (split; lia); unfold stored; replace (j <? q) with false by zlia; reflexivity.
Qed.
Print Assumptions C49_lufactor_nopiv.

(* ---- with row pivoting ---- *)
Lemma lufactor_post : forall T (K : num T), is_field K -> eqb_ok K -> is_ordered K ->
  forall (E : lenv) L cb A ix ce m, 0 <= e_lb E -> env_ok E L cb A -> wf A -> allocated L A ->
  wp (armas_lufactor K E A (Z.min (rows A) (cols A)) ix ce) L m
     (fun r m' => lu_post K E cb A (mkpv 0 (Z.min (rows A) (cols A))) ix ce m r m').
Proof.
  intros T K HF HE HO E L cb A ix ce m Hlb EO WA LA. unfold armas_lufactor. apply wp_if; intros EL.
  - apply unblk_lu_wp; auto. split; auto.
  - apply blk_lu_wp; auto; [lia|split; auto].
Qed.

Theorem C49_lufactor : forall T (K : num T), is_field K -> eqb_ok K -> is_ordered K ->
  forall (E : lenv) L cb A ix ce m, 0 <= e_lb E -> env_ok E L cb A -> wf A -> allocated L A ->
  let N := Z.min (rows A) (cols A) in
  exists err ix' ce' m', armas_lufactor K E A N ix ce L m = Some ((err, ix', ce'), m') /\
    (* every interchange is with a row not above *)
    (forall q, 0 <= q < N -> q < ix' q <= rows A) /\
    (* P*A = L*U *)
    (forall i j, pos A i j -> lu_elt K m' A i j = elt m A (fwd (rows A) ix' (Z.to_nat N) i) j) /\
    (* no multiplier is larger than one *)
    (forall i q, 0 <= q < N -> q < i < rows A -> ltb K (one K) (abs K (elt m' A i q)) = false) /\
    (forall q, ~ 0 <= q < N -> ix' q = ix q) /\
    (forall a, ~ cell A a -> ~ inbuf cb (e_p E) a -> m' a = m a).
Proof.
  intros T K HF HE HO E L cb A ix ce m Hlb EO WA LA N.
  destruct (lufactor_post T K HF HE HO E L cb A ix ce m Hlb EO WA LA) as (((err & ix') & ce') & m' & R & PO).
  destruct PO as ((P1 & P2 & P4) & _ & HX & O). fold N in R, P1, P2, P4, HX. exists err, ix', ce', m'. split; [exact R|].
  split; [exact P1|]. split; [|split; [exact P4|split; [|exact O]]].
  - intros i j (Hi & Hj). symmetry. apply P2; auto.
  - intros q Hq. apply HX. cbn [pv_off pv_n]. lia.
Qed.
Print Assumptions C49_lufactor.

(* ---- what is reported ---- *)
Theorem C66_conf_error_partial : forall T (K : num T), is_field K -> eqb_ok K -> is_ordered K ->
  forall (E : lenv) L cb A ix ce m, 0 <= e_lb E -> env_ok E L cb A -> wf A -> allocated L A -> ce <> ARMAS_ESINGULAR ->
  let N := Z.min (rows A) (cols A) in
  exists err ix' ce' m', armas_lufactor K E A N ix ce L m = Some ((err, ix', ce'), m') /\
    (ce' = ARMAS_ESINGULAR <-> exists q, 0 <= q < N /\ elt m' A q q = zero K) /\
    (ce' <> ARMAS_ESINGULAR -> ce' = ce /\ err = 0) /\
    (err < 0 <-> 0 < N /\ elt m' A (N - 1) (N - 1) = zero K).
Proof.
  intros T K HF HE HO E L cb A ix ce m Hlb EO WA LA Hce N.
  destruct (lufactor_post T K HF HE HO E L cb A ix ce m Hlb EO WA LA) as (((err & ix') & ce') & m' & R & PO).
  destruct PO as (_ & (E1 & E2 & E3 & E4) & _). fold N in R, E1, E2, E3, E4. exists err, ix', ce', m'. split; [exact R|].
  assert (HN : 0 <= N) by (destruct WA as (? & ? & _); unfold N; Lia.lia).
  assert (D : (exists q, 0 <= q < N /\ elt m' A q q = zero K) \/ (forall q, 0 <= q < N -> elt m' A q q <> zero K)).
  { clear -HE HN. pattern N. apply (PSum.vsum_ind); try lia.
    - right. intros. lia.
    - intros n Hn [(q & Hq & Z)|H]; [left; exists q; split; [lia|auto]|].
      destruct (eqb K (elt m' A n n) (zero K)) eqn:E; [left; exists n; split; [lia|apply HE; auto]|].
      right. intros q Hq. destruct (Z.eq_dec q n) as [->|]; [|apply H; lia]. intros Z. apply HE in Z. congruence. }
  assert (X : err < 0 <-> 0 < N /\ elt m' A (N - 1) (N - 1) = zero K).
  { destruct (Z.eq_dec N 0) as [Z0|Z0]; [rewrite E3 by auto; split; [intros; exfalso; lia|intros (X & _); lia]|].
    rewrite E4 by lia. destruct (eqb K (elt m' A (N - 1) (N - 1)) (zero K)) eqn:EZ.
    - apply HE in EZ. split; intros; [split; [lia|auto]|lia].
    - split; [lia|]. intros (_ & Z1). apply HE in Z1. congruence. }
  split; [|split; [|exact X]].
  - split; [|exact E2]. intros C. destruct D as [D|D]; [exact D|]. exfalso. apply Hce. rewrite <- (E1 D). exact C.
  - intros C. destruct D as [D|D]; [exfalso; auto|]. split; [auto|].
    destruct (Z.eq_dec N 0) as [Z0|Z0]; [auto|]. rewrite E4 by lia.
    destruct (eqb K (elt m' A (N - 1) (N - 1)) (zero K)) eqn:EZ; [|reflexivity]. apply HE in EZ. exfalso. apply (D (N - 1)); [lia|exact EZ].
Qed.
Print Assumptions C66_conf_error_partial.

Definition lu_E (lb : Z) : lenv := mklenv 20 1024 256 0 (Some ge_cb) 64 64 160 8 lb.
Definition lu_A (r c : Z) : view := mkview 200 7 r c.

Lemma lu_env : forall lb r c, 0 <= r <= 7 -> 0 <= c <= 7 -> env_ok (lu_E lb) cp_L ge_cb (lu_A r c) /\ wf (lu_A r c) /\ allocated cp_L (lu_A r c).
Proof.
  intros lb r c Hr Hc. destruct (ge_ok 1 1 1 r c 7 1 1 1) as (X1 & X2 & X3 & X4 & X5 & X6 & X7 & X8 & X9); try lia.
  split; [|split; auto]. unfold env_ok, lu_E, lu_A. cbn [e_b1 e_b2 e_fuel e_cb e_mb e_nb e_kb e_p rows cols].
  repeat (split; [first [reflexivity|cbn; lia]|]). unfold buf_ok. repeat (split; [first [reflexivity|cbn; lia]|]). split.
  - intros a Ha. specialize (X9 a Ha). tauto.
  - vm_compute. repeat split; auto; discriminate.
Qed.

(* a zero pivot that is not the last one: conf->error is set, but the value returned says success *)
Definition lu_sing (a : Z) : Qc := Q2Qc (inject_Z (if a =? 207 then 1 else if a =? 208 then 2 else 0)).

Theorem C66_return_value_refuted : exists E L cb A m, env_ok E L cb A /\ wf A /\ allocated L A /\ 0 <= e_lb E /\
  exists ix' ce' m', armas_lufactor Qcnum E A (Z.min (rows A) (cols A)) (fun _ => 0) 0 L m = Some ((0, ix', ce'), m') /\
    0 < Z.min (rows A) (cols A) /\ elt m' A 0 0 = zero Qcnum.
Proof.
  destruct (lu_env 64 2 2) as (H1 & H2 & H3); try lia.
  exists (lu_E 64), cp_L, ge_cb, (lu_A 2 2), lu_sing. repeat (split; [first [assumption|cbn; lia]|]).
  assert (W : match armas_lufactor Qcnum (lu_E 64) (lu_A 2 2) 2 (fun _ => 0) 0 cp_L lu_sing with
    | Some ((e, ix', ce'), m') => e = 0 /\ elt m' (lu_A 2 2) 0 0 = zero Qcnum | None => False end) by (vm_compute; auto).
  change (Z.min (rows (lu_A 2 2)) (cols (lu_A 2 2))) with 2.
  destruct (armas_lufactor _ _ _ _ _ _ _ _) as [[[[e ix'] ce'] m']|] eqn:R; [|contradiction].
  destruct W as (-> & W). exists ix', ce', m'. split; [reflexivity|]. split; [lia|exact W].
Qed.
Print Assumptions C66_return_value_refuted.

(* without pivoting a zero pivot is not reported at all: the exchange matrix *)
Definition lu_xchg (a : Z) : Qc := Q2Qc (inject_Z (if (a =? 201) || (a =? 207) then 1 else 0)).

Theorem C66_nopiv_refuted : exists E L cb A m, env_ok E L cb A /\ wf A /\ allocated L A /\ 0 <= e_lb E /\
  exists m', armas_lufactor_nopiv Qcnum E A L m = Some (0, m') /\
    exists i j, pos A i j /\ lu_elt Qcnum m' A i j <> elt m A i j.
Proof.
  destruct (lu_env 64 2 2) as (H1 & H2 & H3); try lia.
  exists (lu_E 64), cp_L, ge_cb, (lu_A 2 2), lu_xchg. repeat (split; [first [assumption|cbn; lia]|]).
  assert (W : match armas_lufactor_nopiv Qcnum (lu_E 64) (lu_A 2 2) cp_L lu_xchg with
    | Some (e, m') => e = 0 /\ lu_elt Qcnum m' (lu_A 2 2) 1 0 <> elt lu_xchg (lu_A 2 2) 1 0 | None => False end).
  { vm_compute. split; [reflexivity|discriminate]. }
  destruct (armas_lufactor_nopiv _ _ _ _ _) as [[e m']|] eqn:R; [|contradiction].
  destruct W as (-> & W). exists m'. split; [reflexivity|]. exists 1, 0. split; [split; cbn; lia|exact W].
Qed.
Print Assumptions C66_nopiv_refuted.

(* a 5x6 matrix, factored in blocks of two columns and at once *)
Definition lu_m (a : Z) : Qc := Q2Qc (inject_Z ((a * a * 7 + a * 3) mod 11)).

Example C49_nonvacuous : forall lb, lb = 0 \/ lb = 2 -> exists err ix' ce' m',
  armas_lufactor Qcnum (lu_E lb) (lu_A 5 6) 5 (fun _ => 0) 0 cp_L lu_m = Some ((err, ix', ce'), m') /\
  err = 0 /\ ce' = 0 /\ ix' 0 = 2 /\
  (forall i j, 0 <= i < 5 -> 0 <= j < 6 -> lu_elt Qcnum m' (lu_A 5 6) i j = elt lu_m (lu_A 5 6) (fwd 5 ix' 5 i) j).
Proof.
  intros lb Hlb. destruct (lu_env lb 5 6) as (H1 & H2 & H3); try lia.
  destruct (C49_lufactor Qc Qcnum Qc_field Qc_eqb Qc_ordered (lu_E lb) cp_L ge_cb (lu_A 5 6) (fun _ => 0) 0 lu_m) as (err & ix' & ce' & m' & R & _ & V & _);
    auto; [destruct Hlb; subst; cbn; lia|].
  change (Z.min (rows (lu_A 5 6)) (cols (lu_A 5 6))) with 5 in *. exists err, ix', ce', m'. split; [exact R|].
  assert (W : match armas_lufactor Qcnum (lu_E lb) (lu_A 5 6) 5 (fun _ => 0) 0 cp_L lu_m with
    | Some ((e, ix', ce'), m') => e = 0 /\ ce' = 0 /\ ix' 0 = 2 | None => False end) by (destruct Hlb; subst; vm_compute; auto).
  rewrite R in W. destruct W as (W1 & W2 & W3). repeat (split; [assumption|]). intros i j Hi Hj. apply (V i j). split; auto.
Qed.

(* ---- solving a system ---- *)
(* the row of the right-hand side that the interchanges bring to row i *)
Definition pivot_row (P : option pivots) (size i : Z) : Z :=
  match P with Some P => fwd size (indexes P) (Z.to_nat (npivots P)) i | None => i end.

Section S.
  Context {T : Type} (K : num T).
  Hypotheses (HF : is_field K) (HE : eqb_ok K).
  Let HR : is_ring K := Field_theory.F_R HF.
  Let HR' : ring_theory (zero K) (one K) (add K) (mul K) (sub K) (opp K) eq := HR.
  Add Ring KringS : HR'.
  Variables (E : lenv) (L : Z -> bool) (cb : cbuf).

  Lemma outb_tri : forall B A (m m' : Z -> T), buf_ok L cb (e_mb E) (e_nb E) (e_kb E) (e_p E) B A A -> disjoint B A -> outb cb (e_p E) B m m' ->
    forall i j, pos A i j -> elt m' A i j = elt m A i j.
  Proof.
    intros B A m m' (_ & _ & _ & _ & _ & _ & _ & _ & _ & HB & _) D O i j Hp.
    assert (C : cell A (elems A + j * step A + i)) by (exists i, j; auto).
    unfold elt. apply O; [intros C'; exact (D _ C' C)|]. intros Hb. destruct (HB _ Hb) as (_ & _ & X & _). auto.
  Qed.

  Lemma lusolve_wp : forall B A P flags m, env_ok E L cb B -> buf_ok L cb (e_mb E) (e_nb E) (e_kb E) (e_p E) B A A ->
    mok L B -> mok L A -> disjoint B A -> rows A = cols A -> rows B = cols A -> has flags ARMAS_TRANS = false ->
    match P with Some P => 0 <= npivots P <= rows B | None => True end -> (forall i, 0 <= i < cols A -> elt m A i i <> zero K) ->
    wp (armas_lusolve K E B A P flags) L m (fun r m' => r = 0 /\
      (forall i j, pos B i j -> vsum K (cols A) (fun k => mul K (lu_elt K m A i k) (elt m' B k j)) = elt m B (pivot_row P (rows B) i) j) /\
      outb cb (e_p E) B m m').
  Proof.
    intros B A P flags m EO BO OKB OKA D Sq En Hf HP ND. unfold armas_lusolve.
    replace (negb ((rows B =? cols A) && (rows A =? cols A))) with false by (symmetry; Lia.lia).
    assert (X : wp (match P with Some P => armas_pivot_rows B P ARMAS_PIVOT_FORWARD ;; ret tt | None => ret tt end) L m (fun _ m1 =>
       (forall i j, pos B i j -> elt m1 B i j = elt m B (pivot_row P (rows B) i) j) /\ outb cb (e_p E) B m m1)).
    { destruct P as [P|]; [|apply wp_ret; split; [auto|apply outb_refl]]. destruct OKB as (WB & LB).
      destruct (C27_pivot_rows T L m B P ARMAS_PIVOT_FORWARD WB LB HP (or_introl eq_refl)) as (m1 & R1 & _ & R2 & _ & R3).
      wbind. exists 0, m1. split; [exact R1|]. apply wp_ret. split; [exact R2|apply outb_oc; exact R3]. }
    wbind. eapply wp_conseq; [exact X|]. clear X. intros [] m1 (V1 & O1). rewrite Hf.
    wbind. wbind. apply (solve_wp K HF HE E L cb B A); auto; try reflexivity; [repeat split|]. intros m2 V2 O2.
    assert (T1 := outb_tri B A m m1 BO D O1). assert (T2 := outb_tri B A m1 m2 BO D O2).
    apply (solve_wp K HF HE E L cb B A); auto; try reflexivity; [repeat split| |].
    { right. intros i Hi. rewrite T2, T1 by (split; lia). apply ND; auto. }
    intros m3 V3 O3. apply wp_ret. split; [reflexivity|]. split.
    2:{ eapply outb_trans; [exact O1|]. eapply outb_trans; eauto. }
    intros i j Hp. pose proof Hp as (Hi & Hj). rewrite <- V1 by auto.
    transitivity (mul K (one K) (elt m1 B i j)); [|ring].
    change (has (Z.lor ARMAS_LEFT (Z.lor ARMAS_LOWER ARMAS_UNIT)) ARMAS_RIGHT) with false in V2.
    change (has (Z.lor ARMAS_LEFT (Z.lor ARMAS_LOWER ARMAS_UNIT)) ARMAS_UPPER) with false in V2.
    change (has (Z.lor ARMAS_LEFT (Z.lor ARMAS_LOWER ARMAS_UNIT)) ARMAS_UNIT) with true in V2.
    change (has (Z.lor ARMAS_LEFT (Z.lor ARMAS_LOWER ARMAS_UNIT)) ARMAS_TRANSA) with false in V2.
    change (has (Z.lor ARMAS_LEFT ARMAS_UPPER) ARMAS_RIGHT) with false in V3.
    change (has (Z.lor ARMAS_LEFT ARMAS_UPPER) ARMAS_UPPER) with true in V3.
    change (has (Z.lor ARMAS_LEFT ARMAS_UPPER) ARMAS_UNIT) with false in V3.
    change (has (Z.lor ARMAS_LEFT ARMAS_UPPER) ARMAS_TRANSA) with false in V3.
    rewrite <- (V2 i j Hp). cbv iota.
    assert (TE : forall upper un q k, 0 <= q < cols A -> 0 <= k < cols A -> optri K upper un false m2 A q k = optri K upper un false m A q k).
    { intros upper un q k Hq Hk. unfold optri, tri. rewrite T2, T1 by (split; lia). reflexivity. }
    assert (TE1 : forall upper un q k, 0 <= q < cols A -> 0 <= k < cols A -> optri K upper un false m1 A q k = optri K upper un false m A q k).
    { intros upper un q k Hq Hk. unfold optri, tri. rewrite T1 by (split; lia). reflexivity. }
    unfold lu_elt. replace (Z.min (rows A) (cols A)) with (cols A) by Lia.lia.
    transitivity (vsum K (cols A) (fun k => vsum K (cols A) (fun q => mul K (optri K false true false m A i q) (mul K (optri K true false false m A q k) (elt m3 B k j))))).
    { apply vsum_ext. intros k Hk. rewrite <- (vsum_mul_r K HR). apply vsum_ext. intros q Hq. ring. }
    rewrite (vsum_swap K HR). apply vsum_ext. intros q Hq. rewrite TE1 by lia. rewrite (vsum_mul_l K HR). f_equal.
    transitivity (mul K (one K) (elt m2 B q j)); [|ring]. rewrite <- (V3 q j) by (split; lia). cbv iota. apply vsum_ext. intros k Hk. rewrite TE by lia. reflexivity.
  Qed.
End S.

(* with the triangles L and U and the interchanges P:  L*U*X = P*B *)
Theorem C50_lusolve_partial : forall T (K : num T), is_field K -> eqb_ok K ->
  forall (E : lenv) L cb B A P flags m, env_ok E L cb B -> buf_ok L cb (e_mb E) (e_nb E) (e_kb E) (e_p E) B A A ->
  wf B -> wf A -> allocated L B -> allocated L A -> disjoint B A -> rows A = cols A -> rows B = cols A -> has flags ARMAS_TRANS = false ->
  match P with Some P => 0 <= npivots P <= rows B | None => True end -> (forall i, 0 <= i < cols A -> elt m A i i <> zero K) ->
  exists m', armas_lusolve K E B A P flags L m = Some (0, m') /\
    (forall i j, pos B i j -> vsum K (cols A) (fun k => mul K (lu_elt K m A i k) (elt m' B k j)) = elt m B (pivot_row P (rows B) i) j) /\
    (forall a, ~ cell B a -> ~ inbuf cb (e_p E) a -> m' a = m a).
Proof.
  intros T K HF HE E L cb B A P flags m EO BO WB WA LB LA D Sq En Hf HP ND.
  destruct (lusolve_wp K HF HE E L cb B A P flags m) as (r & m' & R & -> & V & O); auto; try (split; auto). exists m'. auto.
Qed.
Print Assumptions C50_lusolve_partial.

(* the two calls together solve the system with the original matrix *)
Theorem C50_system_partial : forall T (K : num T), is_field K -> eqb_ok K -> is_ordered K ->
  forall (E : lenv) L cb B A ix ce m err ix' ce' m1, 0 <= e_lb E -> env_ok E L cb A -> env_ok E L cb B -> buf_ok L cb (e_mb E) (e_nb E) (e_kb E) (e_p E) B A A ->
  wf B -> wf A -> allocated L B -> allocated L A -> disjoint B A -> rows A = cols A -> rows B = cols A -> ce <> ARMAS_ESINGULAR ->
  armas_lufactor K E A (rows A) ix ce L m = Some ((err, ix', ce'), m1) -> ce' <> ARMAS_ESINGULAR ->
  exists m2, armas_lusolve K E B A (Some (mkpiv (rows A) ix')) 0 L m1 = Some (0, m2) /\
    (forall i j, pos B i j -> vsum K (cols A) (fun k => mul K (elt m A i k) (elt m2 B k j)) = elt m B i j).
Proof.
  intros T K HF HE HO E L cb B A ix ce m err ix' ce' m1 Hlb EA EB BO WB WA LB LA D Sq En Hce R Hce'.
  destruct (C49_lufactor T K HF HE HO E L cb A ix ce m Hlb EA WA LA) as (err1 & ix1 & ce1 & m1' & R1 & Q1 & Q2 & _ & _ & Q6).
  destruct (C66_conf_error_partial T K HF HE HO E L cb A ix ce m Hlb EA WA LA Hce) as (err2 & ix2 & ce2 & m1'' & R2 & (_ & S1) & _).
  assert (EN : Z.min (rows A) (cols A) = rows A) by Lia.lia. rewrite EN in *. rewrite R in R1, R2. injection R1 as <- <- <- <-. injection R2 as <- <- <- <-.
  pose proof WA as (Hr & _).
  destruct (C50_lusolve_partial T K HF HE E L cb B A (Some (mkpiv (rows A) ix')) 0 m1) as (m2 & R3 & V & _); auto.
  { cbn [npivots]. lia. }
  { intros i Hi Z0. apply Hce'. apply S1. exists i. split; [lia|exact Z0]. }
  exists m2. split; [exact R3|]. intros i j (Hi & Hj).
  destruct (pivot_map_bij (mkpiv (rows A) ix') ARMAS_PIVOT_FORWARD (rows A)) as (F1 & F2); [cbn [npivots]; lia|].
  unfold pivot_map in F1, F2. change (ARMAS_PIVOT_FORWARD =? ARMAS_PIVOT_FORWARD) with true in F1, F2. cbn [npivots indexes] in F1, F2.
  destruct (F2 i) as (i' & Hi' & Ei); [lia|]. specialize (V i' j ltac:(split; lia)). cbn [pivot_row npivots indexes] in V.
  replace (rows B) with (rows A) in V by lia. rewrite Ei in V.
  assert (TB : elt m1 B i j = elt m B i j).
  { assert (C : cell B (elems B + j * step B + i)) by (exists i, j; repeat split; lia).
    unfold elt. apply Q6; [intros C'; exact (D _ C C')|]. intros Hb. destruct EB as (_ & _ & _ & _ & _ & _ & _ & _ & _ & _ & _ & _ & _ & _ & HB & _).
    destruct (HB _ Hb) as (_ & X & _). auto. }
  rewrite TB in V. rewrite <- V. apply vsum_ext. intros k Hk. f_equal. rewrite Q2 by (split; lia). rewrite Ei. reflexivity.
Qed.
Print Assumptions C50_system_partial.

(* sizes that do not fit are refused and nothing is touched *)
Theorem C50_size : forall T (K : num T) E L B A P flags m, ~ (rows B = cols A /\ rows A = cols A) ->
  armas_lusolve K E B A P flags L m = Some (- ARMAS_ESIZE, m).
Proof.
  intros T K E L B A P flags m H. unfold armas_lusolve. replace (negb ((rows B =? cols A) && (rows A =? cols A))) with true by (symmetry; Lia.lia). reflexivity.
Qed.
Print Assumptions C50_size.

(* with the transpose flag the triangles are applied in the wrong order *)
Definition lt_B (r : Z) : view := mkview 100 5 r 1.
Definition lt_m (a : Z) : Qc := Q2Qc (inject_Z (if a <? 200 then (if a =? 100 then 1 else 0) else if a =? 208 then 2 else 1)).

Lemma lt_ok : forall lb r, 0 <= r <= 5 -> env_ok (lu_E lb) cp_L ge_cb (lt_B r) /\ wf (lt_B r) /\ allocated cp_L (lt_B r) /\ disjoint (lt_B r) (lu_A r r) /\
  buf_ok cp_L ge_cb 64 64 160 8 (lt_B r) (lu_A r r) (lu_A r r).
Proof.
  intros lb r Hr. destruct (ge_ok r 1 5 r r 7 1 1 1) as (X1 & X2 & X3 & X4 & X5 & X6 & X7 & X8 & X9); try lia.
  assert (BO : buf_ok cp_L ge_cb 64 64 160 8 (lt_B r) (lu_A r r) (lu_A r r)).
  { unfold buf_ok. repeat (split; [first [reflexivity|cbn; lia]|]). split.
    - intros a Ha. specialize (X9 a Ha). unfold lt_B, lu_A. tauto.
    - vm_compute. repeat split; auto; discriminate. }
  split; [|repeat (split; [assumption|]); exact BO]. unfold env_ok, lu_E. cbn [e_b1 e_b2 e_fuel e_cb e_mb e_nb e_kb e_p].
  repeat (split; [first [reflexivity|cbn; lia]|]). destruct BO as (Y1 & Y2 & Y3 & Y4 & Y5 & Y6 & Y7 & Y8 & Y9 & Y10 & Y11).
  unfold buf_ok. repeat (split; [assumption|]). split; [|exact Y11]. intros a Ha. specialize (Y10 a Ha). tauto.
Qed.

Theorem C50_trans_refuted : exists E L cb B A m m1 m2 ix',
  env_ok E L cb A /\ env_ok E L cb B /\ buf_ok L cb (e_mb E) (e_nb E) (e_kb E) (e_p E) B A A /\
  wf B /\ wf A /\ allocated L B /\ allocated L A /\ disjoint B A /\ rows A = cols A /\ rows B = cols A /\
  armas_lufactor Qcnum E A (rows A) (fun _ => 0) 0 L m = Some ((0, ix', 0), m1) /\
  armas_lusolve Qcnum E B A (Some (mkpiv (rows A) ix')) ARMAS_TRANS L m1 = Some (0, m2) /\
  exists i j, pos B i j /\ vsum Qcnum (rows A) (fun k => mul Qcnum (elt m A k i) (elt m2 B k j)) <> elt m B i j.
Proof.
  destruct (lu_env 64 2 2) as (H1 & H2 & H3); try lia. destruct (lt_ok 64 2) as (G1 & G2 & G3 & G4 & G5); try lia.
  assert (W : match armas_lufactor Qcnum (lu_E 64) (lu_A 2 2) 2 (fun _ => 0) 0 cp_L lt_m with
    | Some ((e, ix', ce'), m1) => e = 0 /\ ce' = 0 /\ match armas_lusolve Qcnum (lu_E 64) (lt_B 2) (lu_A 2 2) (Some (mkpiv 2 ix')) ARMAS_TRANS cp_L m1 with
       | Some (r, m2) => r = 0 /\ vsum Qcnum 2 (fun k => mul Qcnum (elt lt_m (lu_A 2 2) k 0) (elt m2 (lt_B 2) k 0)) <> elt lt_m (lt_B 2) 0 0 | None => False end
    | None => False end).
  { vm_compute. repeat split; discriminate. }
  destruct (armas_lufactor _ _ _ _ _ _ _ _) as [[[[e ix'] ce'] m1]|] eqn:R1; [|contradiction].
  destruct W as (-> & -> & W). destruct (armas_lusolve _ _ _ _ _ _ _ _) as [[r m2]|] eqn:R2; [|contradiction]. destruct W as (-> & W).
  exists (lu_E 64), cp_L, ge_cb, (lt_B 2), (lu_A 2 2), lt_m, m1, m2, ix'.
  split; [exact H1|]. split; [exact G1|]. split; [exact G5|]. split; [exact G2|]. split; [exact H2|]. split; [exact G3|]. split; [exact H3|]. split; [exact G4|].
  split; [reflexivity|]. split; [reflexivity|]. split; [exact R1|]. split; [exact R2|].
  exists 0, 0. split; [split; cbn; lia|exact W].
Qed.
Print Assumptions C50_trans_refuted.

(* a system of five equations whose solution needs interchanges *)
Example C50_nonvacuous : exists err ix' ce' m1 m2,
  armas_lufactor Qcnum (lu_E 2) (lu_A 5 5) 5 (fun _ => 0) 0 cp_L lu_m = Some ((err, ix', ce'), m1) /\ ce' = 0 /\
  armas_lusolve Qcnum (lu_E 2) (lt_B 5) (lu_A 5 5) (Some (mkpiv 5 ix')) 0 cp_L m1 = Some (0, m2) /\
  (forall i, 0 <= i < 5 -> vsum Qcnum 5 (fun k => mul Qcnum (elt lu_m (lu_A 5 5) i k) (elt m2 (lt_B 5) k 0)) = elt lu_m (lt_B 5) i 0).
Proof.
  destruct (lu_env 2 5 5) as (H1 & H2 & H3); try lia. destruct (lt_ok 2 5) as (G1 & G2 & G3 & G4 & G5); try lia.
  assert (W : match armas_lufactor Qcnum (lu_E 2) (lu_A 5 5) 5 (fun _ => 0) 0 cp_L lu_m with
    | Some ((e, ix', ce'), m1) => ce' = 0 | None => False end) by (vm_compute; auto).
  destruct (armas_lufactor _ _ _ _ _ _ _ _) as [[[[e ix'] ce'] m1]|] eqn:R1; [|contradiction].
  destruct (C50_system_partial Qc Qcnum Qc_field Qc_eqb Qc_ordered (lu_E 2) cp_L ge_cb (lt_B 5) (lu_A 5 5) (fun _ => 0) 0 lu_m e ix' ce' m1
    ltac:(cbn; lia) H1 G1 G5 G2 H2 G3 H3 G4 eq_refl eq_refl ltac:(discriminate) R1) as (m2 & R2 & V).
  { rewrite W. discriminate. }
  exists e, ix', ce', m1, m2. split; [reflexivity|]. split; [exact W|]. split; [exact R2|]. intros i Hi. apply (V i 0). split; cbn; lia.
Qed.
