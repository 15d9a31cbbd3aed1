(* Properties_LuInv.v: the inverse of a general matrix from its LU factors (C92). *)
From Coq Require Import ZArith Lia Bool List ZifyBool Ring Field QArith Qcanon.
From Verif Require Import Mem MView SpecView PView PSub Hoare MFlags MBase PUpd MNum SpecNum PSum PBlas2 PSym PFrame SpecTrm MGemm PGemm MTrsm PTrsm
  MPivot SpecPivot MLap PLap MLu MQr PQrF MInv PInvM PInv MLuInv PLuInv PLuInvM PLuInvB Inst
  Properties_Pivot Properties_Gemm Properties_Trsm Properties_Copy Properties_Lu Properties_Qr.
Local Open Scope Z_scope.
Local Open Scope prog_scope.
Ltac lia := nobool; zlia.

(* x is the inverse of a, on both sides *)
Definition is_inverse {T} (K : num T) (n : Z) (x a : Z -> Z -> T) : Prop := forall i j, 0 <= i < n -> 0 <= j < n ->
  vsum K n (fun k => mul K (x i k) (a k j)) = (if i =? j then one K else zero K) /\
  vsum K n (fun k => mul K (a i k) (x k j)) = (if i =? j then one K else zero K).

(* the solver applied to a triangle of less than n columns does not reach its defective path (C91) *)
Definition solver_small (E : lenv) (cb : cbuf) (n : Z) : Prop := has (e_opt E) ARMAS_ONAIVE = true \/
  (if has (e_opt E) ARMAS_ORECURSIVE then n <= e_b2 E else Z.min (NB (armas_cache_setup2 cb (e_mb E) (e_nb E) (e_kb E) (e_p E))) n < e_b2 E).

Section Q.
  Context {T : Type} (K : num T).
  Hypotheses (HF : is_field K) (HE : eqb_ok K).
  Let HR : is_ring K := Field_theory.F_R HF.
  Let HR' : ring_theory (zero K) (one K) (add K) (mul K) (sub K) (opp K) eq := HR.
  Add Ring KringPLI : HR'.

  (* the result before the interchanges *)
  Lemma linv_inverse : forall E cb A W w (m m' : Z -> T), rows A = cols A -> wf A ->
    (forall i, 0 <= i < cols A -> elt m A i i <> zero K) -> binv K E cb A W w m 0 m' ->
    forall i j, 0 <= i < cols A -> 0 <= j < cols A ->
      mm K (cols A) (elt m' A) (lu_elt K m A) i j = dlt K i j /\ mm K (cols A) (lu_elt K m A) (elt m' A) i j = dlt K i j.
  Proof.
    intros E cb A W w m m' Sq WA NZ (_ & H & _) i j Hi Hj. set (n := cols A) in *.
    set (l := fun i j => if i =? j then one K else elt m A i j).
    assert (LD : forall i, 0 <= i < n -> l i i <> zero K).
    { intros q Hq. unfold l. rewrite Z.eqb_refl. apply (Field_theory.F_1_neq_0 HF). }
    assert (LU : forall p q, lu_elt K m A p q = mm K n (tr K false l) (tr K true (elt m A)) p q).
    { intros p q. unfold lu_elt, mm. rewrite Sq, Z.min_id. apply vsum_ext. intros k Hk. f_equal.
      - unfold optri, tri, PInvM.tr, inT, l. destruct (Z.eqb_spec p k) as [->|D]; [rewrite Z.leb_refl; reflexivity|].
        destruct (k <? p) eqn:E1; [replace (k <=? p) with true by Lia.lia|replace (k <=? p) with false by Lia.lia]; reflexivity.
      - rewrite (optri_tr K) by discriminate. reflexivity. }
    destruct (lu_inverse K HF n (elt m A) l (elt m' A) NZ LD) with (i := i) (j := j) as (X1 & X2); auto.
    - intros p q Hp Hq. specialize (H p q ltac:(split; lia) ltac:(lia)). rewrite <- H. unfold mm at 1. apply vsum_ext. intros k Hk. f_equal.
      unfold xl, mm. fold n. rewrite (vsum_at K HR n q) by lia.
      rewrite (vsum_zero K HR q).
      + unfold PInvM.tr at 1. unfold inT. rewrite Z.leb_refl. unfold l at 1. rewrite Z.eqb_refl.
        replace (n - q - 1) with (n - 1 - q) by lia.
        rewrite (vsum_ext K (n - 1 - q) (fun k0 => mul K (elt m' A k (q + (1 + k0))) (tr K false l (q + (1 + k0)) q)) (fun q0 => mul K (elt m' A k (q + 1 + q0)) (elt m A (q + 1 + q0) q))).
        * ring.
        * intros s Hs. unfold PInvM.tr, inT, l. replace (q <=? q + (1 + s)) with true by Lia.lia. replace (q + (1 + s) =? q) with false by Lia.lia.
          replace (q + (1 + s)) with (q + 1 + s) by lia. reflexivity.
      + intros s Hs. unfold PInvM.tr, inT. replace (q <=? s) with false by Lia.lia. ring.
    - split; [rewrite <- X1|rewrite <- X2]; unfold mm at 1 3; apply vsum_ext; intros k Hk; rewrite LU; reflexivity.
  Qed.

  Lemma bytes_ws : forall b n p a, 0 < p -> b mod p = 0 -> ws (b / p) (n / p) a -> in_bytes b n p a.
  Proof.
    intros b n p a Hp Hb (H1 & H2). unfold in_bytes. pose proof (Z_div_mod_eq_full b p). pose proof (Z_div_mod_eq_full n p). pose proof (Z.mod_pos_bound n p Hp). nia.
  Qed.

  Lemma wpos_same : forall w, armas_wsetpos w (armas_wpos w) = w.
  Proof. intros [wb wy wo]. unfold armas_wsetpos, armas_wpos. cbn [w_bytes w_offset w_buf]. destruct (wo <? wy); reflexivity. Qed.

  Lemma luinverse_w_ok : forall (E : lenv) L cb A P w ce (m : Z -> T) (a0 : Z -> Z -> T),
    let n := w_bytes w - w_offset w in let lb := luinv_lb E (rows A) (n / e_p E) in
    env_ok E L cb A -> wf A -> allocated L A -> rows A = cols A -> 0 <= e_lb E ->
    match P with Some P => npivots P = rows A | None => True end ->
    w_bytes w <> 0 -> 0 <= w_offset w <= w_bytes w -> w_bytes w < 2 ^ 64 -> rows A * e_p E <= n -> armas_wptr w mod e_p E = 0 ->
    (forall a, in_bytes (armas_wptr w) n (e_p E) a -> L a = true /\ ~ cell A a /\ ~ inbuf cb (e_p E) a) ->
    lb = 0 \/ rows A <= lb \/ solver_small E cb (rows A) ->
    (forall i, 0 <= i < rows A -> elt m A i i <> zero K) ->
    (forall i j, pos A i j -> lu_elt K m A i j = a0 (pivot_row P (rows A) i) j) ->
    exists m', armas_luinverse_w K E (Some A) P (Some w) ce L m = Some ((0, ce, Some w), m') /\
      is_inverse K (rows A) (elt m' A) a0 /\
      (forall a, ~ cell A a -> ~ in_bytes (armas_wptr w) n (e_p E) a -> ~ inbuf cb (e_p E) a -> m' a = m a).
  Proof.
    intros E L cb A P w ce m a0 n lb EO WA LA Sq Hlb0 HP Hw0 Ho Hb Hsz Hal HW Hlb NZ H0. pose proof WA as (Hr & Hc & _).
    assert (Hp : 0 < e_p E) by apply EO.
    assert (EB : armas_wbytes w = n) by (unfold armas_wbytes, u64; apply Z.mod_small; lia).
    set (ne := n / e_p E). set (W := armas_wptr w / e_p E).
    assert (HNn : rows A <= ne) by (apply Z.div_le_lower_bound; lia).
    assert (HW' : forall a, ws W ne a -> in_bytes (armas_wptr w) n (e_p E) a) by (intros a Ha; apply bytes_ws; auto).
    assert (X : wp (if (lb =? 0) || (rows A <=? lb) then unblk_inverse_fused K E A W ce else blk_inverse_fused K E A W lb ce) L m
      (fun s m' => s = (0, ce) /\ binv K E cb A W ne m 0 m')).
    { assert (Hlbe : 0 < lb -> lb <= e_lb E /\ (rows A > lb -> rows A * lb <= ne)).
      { unfold lb, luinv_lb. fold n ne. intros Hl. destruct (Z.gtb_spec (rows A) (e_lb E)) as [C1|C1]; cbn [andb] in *; [|lia].
        destruct (Z.ltb_spec ne (e_lb E * rows A)) as [C2|C2]; [|lia].
        destruct (and_not3 (ne / rows A) <? 32); [exfalso; lia|]. unfold and_not3 in *. assert (0 < rows A) by lia.
        pose proof (Z.mod_pos_bound (ne / rows A) 4). pose proof (Z_div_mod_eq_full ne (rows A)). pose proof (Z.mod_pos_bound ne (rows A)). nia. }
      destruct ((lb =? 0) || (rows A <=? lb)) eqn:Cb.
      - eapply wp_conseq.
        + apply (lunblk_wp K HF HE E L cb A W EO (conj WA LA) Sq).
          * intros a Ha. destruct (HW a) as (X1 & X2 & X3); [apply HW'; unfold ws; lia|]. auto.
          * intros i Hi. apply NZ. lia.
        + cbn beta. intros s m' (-> & Y1 & Y2 & Y3). split; [reflexivity|]. split; [exact Y1|]. split; [exact Y2|].
          intros a Z1 Z2 Z3. apply Y3; auto. lia.
      - assert (Hp0 : 0 < lb).
        { assert (0 <= lb); [|Lia.lia]. unfold lb, luinv_lb. destruct (_ && _); [|lia]. cbv zeta. destruct (_ <? 32) eqn:C3; Lia.lia. }
        destruct (Hlbe Hp0) as (L1 & L2).
        apply (lblk_wp K HF HE E L cb A W ne EO (conj WA LA) Sq).
        + intros a Ha. apply HW. apply HW'. exact Ha.
        + lia.
        + rewrite <- Sq. apply L2. Lia.lia.
        + intros i Hi. apply NZ. lia.
        + intros x Hx. destruct Hlb as [Hlb|[Hlb|[Hlb|Hlb]]]; [Lia.lia|Lia.lia|left; exact Hlb|right]. destruct (has (e_opt E) ARMAS_ORECURSIVE); lia. }
    destruct X as (s & m1 & R1 & -> & HI).
    assert (I1 := linv_inverse E cb A W ne m m1 Sq WA ltac:(intros; apply NZ; lia) HI). destruct HI as (_ & _ & HO).
    assert (HO' : forall a, ~ cell A a -> ~ in_bytes (armas_wptr w) n (e_p E) a -> ~ inbuf cb (e_p E) a -> m1 a = m a).
    { intros a Y1 Y2 Y3. apply HO; [exact Y1| |exact Y3]. intros Y. apply Y2. apply HW'. exact Y. }
    unfold armas_luinverse_w. replace (w_bytes w =? 0) with false by lia. rewrite Sq, Z.eqb_refl. cbn [negb orb].
    replace (match P with Some P0 => negb (npivots P0 =? cols A) | None => false end) with false by (destruct P; [rewrite HP, Sq, Z.eqb_refl|]; reflexivity).
    rewrite EB. cbv zeta. replace (n <? cols A * e_p E) with false by (rewrite <- Sq; lia). rewrite <- Sq. fold ne W. fold ne in lb. fold lb.
    destruct P as [P|].
    - destruct P as [np ix]. cbn [npivots] in HP. subst np.
      destruct (C27_pivot_cols T L m1 A (mkpiv (rows A) ix) ARMAS_PIVOT_BACKWARD) as (m2 & _ & R2 & V2 & _ & O2); auto.
      { cbn [npivots]. lia. }
      exists m2. split; [|split].
      + rewrite !run_bind, R1. cbv iota beta. cbn [fst snd]. change (0 =? 0) with true. cbv iota. rewrite !run_bind, R2. rewrite wpos_same. reflexivity.
      + intros i j Hi Hj. rewrite <- Sq in V2. destruct (pivot_inv (rows A) ix Hr) as (B1 & B2 & B3 & B4).
        rewrite <- Sq in I1.
        destruct (inverse_perm K HF (rows A) _ _ a0 (lu_elt K m A) (elt m1 A) B1 B2 B3 B4) with (i := i) (j := j) as (Y1 & Y2); auto.
        { intros p q Hq1 Hq2. rewrite H0 by (split; lia). reflexivity. }
        change (if i =? j then one K else zero K) with (dlt K i j). split; [rewrite <- Y1|rewrite <- Y2]; unfold mm; apply vsum_ext; intros k Hk; f_equal; apply V2; split; lia.
      + intros a Y1 Y2 Y3. rewrite O2; auto.
    - exists m1. split; [|split; [|exact HO']].
      + rewrite !run_bind, R1. cbv iota beta. cbn [fst snd]. rewrite wpos_same. reflexivity.
      + intros i j Hi Hj. rewrite <- Sq in I1. destruct (I1 i j Hi Hj) as (Y1 & Y2). cbn [pivot_row] in H0.
        change (if i =? j then one K else zero K) with (dlt K i j). split; [rewrite <- Y1|rewrite <- Y2]; unfold mm; apply vsum_ext; intros k Hk; rewrite H0 by (split; lia); reflexivity.
  Qed.
End Q.

(* ---- C92: armas_luinverse_w, armas_luinverse ---- *)
(* A holds the factors of P*a0; it is replaced by the inverse of a0.  lb is the block size chosen *)
Theorem C92_luinverse_w_partial : forall T (K : num T), is_field K -> eqb_ok K ->
  forall (E : lenv) L cb A P w ce (m : Z -> T) (a0 : Z -> Z -> T),
  let n := w_bytes w - w_offset w in let lb := luinv_lb E (rows A) (n / e_p E) in
  env_ok E L cb A -> wf A -> allocated L A -> rows A = cols A -> 0 <= e_lb E ->
  match P with Some P => npivots P = rows A | None => True end ->
  w_bytes w <> 0 -> 0 <= w_offset w <= w_bytes w -> w_bytes w < 2 ^ 64 -> rows A * e_p E <= n -> armas_wptr w mod e_p E = 0 ->
  (forall a, in_bytes (armas_wptr w) n (e_p E) a -> L a = true /\ ~ cell A a /\ ~ inbuf cb (e_p E) a) ->
  lb = 0 \/ rows A <= lb \/ solver_small E cb (rows A) ->
  (forall i, 0 <= i < rows A -> elt m A i i <> zero K) ->
  (forall i j, pos A i j -> lu_elt K m A i j = a0 (pivot_row P (rows A) i) j) ->
  exists m', armas_luinverse_w K E (Some A) P (Some w) ce L m = Some ((0, ce, Some w), m') /\
    is_inverse K (rows A) (elt m' A) a0 /\
    (forall a, ~ cell A a -> ~ in_bytes (armas_wptr w) n (e_p E) a -> ~ inbuf cb (e_p E) a -> m' a = m a).
Proof. intros T K HF HE. exact (luinverse_w_ok K HF HE). Qed.
Print Assumptions C92_luinverse_w_partial.

(* with its own workspace, for which calloc returns b *)
Theorem C92_luinverse_partial : forall T (K : num T), is_field K -> eqb_ok K ->
  forall (E : lenv) L cb A P b ce (m : Z -> T) (a0 : Z -> Z -> T),
  let size := rows A * Z.max 1 (e_lb E) * e_p E in
  env_ok E L cb A -> wf A -> allocated L A -> rows A = cols A -> 0 < rows A -> 0 <= e_lb E ->
  match P with Some P => npivots P = rows A | None => True end ->
  size < 2 ^ 64 -> b mod e_p E = 0 ->
  (forall a, in_bytes b size (e_p E) a -> L a = true /\ ~ cell A a /\ ~ inbuf cb (e_p E) a) ->
  e_lb E = 0 \/ rows A <= e_lb E \/ solver_small E cb (rows A) ->
  (forall i, 0 <= i < rows A -> elt m A i i <> zero K) ->
  (forall i j, pos A i j -> lu_elt K m A i j = a0 (pivot_row P (rows A) i) j) ->
  exists m', armas_luinverse K E (Some b) (Some A) P ce L m = Some ((0, ce), m') /\
    is_inverse K (rows A) (elt m' A) a0 /\
    (forall a, ~ cell A a -> ~ in_bytes b size (e_p E) a -> ~ inbuf cb (e_p E) a -> m' a = m a).
Proof.
  intros T K HF HE E L cb A P b ce m a0 size EO WA LA Sq Hr Hlb0 HP Hsz Hal HW Hlb NZ H0.
  assert (Hp : 0 < e_p E) by apply EO.
  set (n := if (e_lb E >? 0) && (rows A >? e_lb E) then rows A * e_lb E else rows A).
  assert (Hn : rows A <= n /\ n * e_p E <= size).
  { unfold n, size. destruct (Z.gtb_spec (e_lb E) 0) as [E1|E1]; cbn [andb]; [destruct (rows A >? e_lb E); nia|nia]. }
  set (w := armas_walloc b (n * e_p E)).
  assert (Hw : forall a, in_bytes (armas_wptr w) (w_bytes w - w_offset w) (e_p E) a -> in_bytes b size (e_p E) a).
  { intros a. unfold w, armas_walloc, armas_wptr, in_bytes. cbn [w_buf w_bytes w_offset]. lia. }
  assert (Ed : (w_bytes w - w_offset w) / e_p E = n) by (unfold w, armas_walloc; cbn [w_bytes w_offset]; rewrite Z.sub_0_r; apply Z.div_mul; lia).
  assert (Elb : luinv_lb E (rows A) n = e_lb E).
  { unfold luinv_lb, n. destruct (Z.gtb_spec (rows A) (e_lb E)) as [E1|E1]; [|rewrite andb_false_l; reflexivity]. rewrite andb_true_l, andb_true_r.
    destruct (Z.gtb_spec (e_lb E) 0) as [E2|E2]; [rewrite (Z.mul_comm (e_lb E)), Z.ltb_irrefl; reflexivity|].
    replace (rows A <? e_lb E * rows A) with false by (symmetry; apply Z.ltb_ge; nia). reflexivity. }
  destruct (C92_luinverse_w_partial T K HF HE E L cb A P w ce m a0) as (m' & R1 & R2 & R3);
    [exact EO|exact WA|exact LA|exact Sq|exact Hlb0|exact HP|cbn; nia|cbn; nia|cbn; lia|cbn [w armas_walloc w_bytes w_offset]; nia|
     unfold w, armas_walloc, armas_wptr; cbn [w_buf w_offset]; rewrite Z.add_0_r; exact Hal|intros a Ha; apply HW; auto| |exact NZ|exact H0|].
  { rewrite Ed, Elb. exact Hlb. }
  exists m'. split; [|split; [exact R2|]].
  - assert (Q : armas_luinverse_w K E (Some A) P (Some (mkwbuf 0 0 0)) ce L m = Some ((0, ce, Some (mkwbuf 0 (n * e_p E) 0)), m)) by reflexivity.
    unfold armas_luinverse. rewrite run_bind, Q. cbv iota beta. cbn [fst snd w_bytes]. change (0 <? 0) with false. cbv iota zeta.
    replace (n * e_p E >? 0) with true by (symmetry; apply Z.gtb_lt; nia).
    rewrite run_bind. fold w. rewrite R1. reflexivity.
  - intros a X1 X2 X3. apply R3; auto.
Qed.
Print Assumptions C92_luinverse_partial.

(* factor a matrix, then invert it *)
Theorem C92_factor_invert_partial : forall T (K : num T), is_field K -> eqb_ok K -> is_ordered K ->
  forall (E : lenv) L cb A b ix ce (m : Z -> T) err ix' ce' m1,
  let size := rows A * Z.max 1 (e_lb E) * e_p E in
  env_ok E L cb A -> wf A -> allocated L A -> rows A = cols A -> 0 < rows A -> 0 <= e_lb E ->
  size < 2 ^ 64 -> b mod e_p E = 0 ->
  (forall a, in_bytes b size (e_p E) a -> L a = true /\ ~ cell A a /\ ~ inbuf cb (e_p E) a) ->
  e_lb E = 0 \/ rows A <= e_lb E \/ solver_small E cb (rows A) ->
  ce <> ARMAS_ESINGULAR -> armas_lufactor K E A (rows A) ix ce L m = Some ((err, ix', ce'), m1) -> ce' <> ARMAS_ESINGULAR ->
  exists m2, armas_luinverse K E (Some b) (Some A) (Some (mkpiv (rows A) ix')) ce' L m1 = Some ((0, ce'), m2) /\
    is_inverse K (rows A) (elt m2 A) (elt m A) /\
    (forall a, ~ cell A a -> ~ in_bytes b size (e_p E) a -> ~ inbuf cb (e_p E) a -> m2 a = m a).
Proof.
  intros T K HF HE HO E L cb A b ix ce m err ix' ce' m1 size EO WA LA Sq Hr Hlb0 Hsz Hal HW Hlb Hce R Hce'.
  destruct (C49_lufactor T K HF HE HO E L cb A ix ce m Hlb0 EO WA LA) as (err1 & ix1 & ce1 & m1' & R1 & _ & Q2 & _ & _ & Q6).
  destruct (C66_conf_error_partial T K HF HE HO E L cb A ix ce m Hlb0 EO WA LA Hce) as (err2 & ix2 & ce2 & m1'' & R2 & (_ & S1) & _).
  assert (EN : Z.min (rows A) (cols A) = rows A) by Lia.lia. rewrite EN in *. rewrite R in R1, R2. injection R1 as <- <- <- <-. injection R2 as <- <- <- <-.
  destruct (C92_luinverse_partial T K HF HE E L cb A (Some (mkpiv (rows A) ix')) b ce' m1 (elt m A)) as (m2 & R3 & V & O); auto.
  - intros i Hi Z0. apply Hce'. apply S1. exists i. split; [lia|exact Z0].
  - exists m2. split; [exact R3|]. split; [exact V|]. intros a X1 X2 X3. rewrite O, Q6; auto.
Qed.
Print Assumptions C92_factor_invert_partial.

(* bad arguments are reported and nothing is written *)
Theorem C92_errors : forall T (K : num T) (E : lenv) L A P wb ce (m : Z -> T),
  let bad e := exists w', armas_luinverse_w K E A P wb ce L m = Some ((-1, e, w'), m) in
  (A = None -> bad ARMAS_EINVAL /\ forall ptr, armas_luinverse K E ptr A P ce L m = Some ((-1, ARMAS_EINVAL), m)) /\
  (forall V, A = Some V -> match wb with Some w => w_bytes w <> 0 | None => True end ->
     (rows V <> cols V \/ (exists p, P = Some p /\ npivots p <> rows V) -> bad ARMAS_ESIZE) /\
     (rows V = cols V -> match P with Some p => npivots p = rows V | None => True end ->
      match wb with Some w => 0 <= w_offset w <= w_bytes w /\ w_bytes w < 2 ^ 64 /\ w_bytes w - w_offset w < rows V * e_p E | None => 0 < rows V * e_p E end -> bad ARMAS_EWORK)) /\
  (forall V, A = Some V -> 0 < rows V -> 0 < e_p E -> armas_luinverse K E None A P ce L m = Some ((-1, ARMAS_EMEMORY), m)).
Proof.
  intros T K E L A P wb ce m bad. split; [|split].
  - intros ->. split; [eexists; reflexivity|reflexivity].
  - intros V -> Hw. unfold bad, armas_luinverse_w.
    replace (match wb with Some w => w_bytes w =? 0 | None => false end) with false by (destruct wb; [symmetry; apply Z.eqb_neq; exact Hw|reflexivity]).
    split.
    + intros H. exists wb.
      replace (negb (rows V =? cols V) || match P with Some P0 => negb (npivots P0 =? rows V) | None => false end) with true; [reflexivity|].
      symmetry. apply orb_true_iff. destruct H as [H|(p & -> & H)]; [left|right]; apply Z.eqb_neq in H; rewrite H; reflexivity.
    + intros Sq HP Hb. rewrite Sq, Z.eqb_refl. cbn [negb orb].
      replace (match P with Some P0 => negb (npivots P0 =? cols V) | None => false end) with false by (destruct P; [rewrite HP, Sq, Z.eqb_refl|]; reflexivity).
      cbv zeta. rewrite <- Sq.
      replace (match wb with Some w => armas_wbytes w | None => 0 end <? rows V * e_p E) with true; [eexists; reflexivity|].
      symmetry. apply Z.ltb_lt. destruct wb; [|exact Hb]. destruct Hb as (B1 & B2 & B3). unfold armas_wbytes, u64. rewrite Z.mod_small by lia. exact B3.
  - intros V -> Hr Hp. unfold armas_luinverse. rewrite run_bind.
    set (n := if (e_lb E >? 0) && (rows V >? e_lb E) then rows V * e_lb E else rows V).
    assert (Hn : 0 < n).
    { unfold n. destruct (Z.gtb_spec (e_lb E) 0) as [E1|E1]; cbn [andb]; [destruct (rows V >? e_lb E); nia|nia]. }
    assert (Q : armas_luinverse_w K E (Some V) P (Some (mkwbuf 0 0 0)) ce L m = Some ((0, ce, Some (mkwbuf 0 (n * e_p E) 0)), m)) by reflexivity.
    rewrite Q. cbv iota beta. cbn [fst snd w_bytes]. change (0 <? 0) with false. cbv iota zeta.
    replace (n * e_p E >? 0) with true by (symmetry; apply Z.gtb_lt; nia). reflexivity.
Qed.
Print Assumptions C92_errors.

Definition li_m (a : Z) : Qc := Q2Qc (inject_Z ((a * a * 7 + a * 3 + (a mod 5) * 11) mod 13)).
Definition li_E (b2 opt lb : Z) : lenv := mklenv 20 1024 b2 opt (Some ge_cb) 64 64 160 8 lb.
Definition li_idx : list Z := 0 :: 1 :: 2 :: 3 :: 4 :: nil.

(* in blocks, when the solved triangle is not smaller than the limit of the recursive solver: the factors are right, the inverse is not *)
Theorem C92_recursive_refuted : exists E L cb A ix ce m err ix' ce' m1 m2 b, env_ok E L cb A /\ wf A /\ allocated L A /\ rows A = cols A /\ 0 < e_lb E /\
  (forall a, in_bytes b (rows A * e_lb E * e_p E) (e_p E) a -> L a = true /\ ~ cell A a) /\
  armas_lufactor Qcnum E A (rows A) ix ce L m = Some ((err, ix', ce'), m1) /\ ce' <> ARMAS_ESINGULAR /\ err = 0 /\
  armas_luinverse Qcnum E (Some b) (Some A) (Some (mkpiv (rows A) ix')) ce' L m1 = Some ((0, ce'), m2) /\
  ~ is_inverse Qcnum (rows A) (elt m2 A) (elt m A).
Proof.
  destruct (lu_env 2 5 5) as (H1 & H2 & H3); try Lia.lia.
  assert (W : match armas_lufactor Qcnum (li_E 2 ARMAS_ORECURSIVE 2) (lu_A 5 5) 5 (fun _ => 0) 0 cp_L li_m with
    | Some ((err, ix', ce'), m1) => ce' = 0 /\ err = 0 /\
        match armas_luinverse Qcnum (li_E 2 ARMAS_ORECURSIVE 2) (Some 12800) (Some (lu_A 5 5)) (Some (mkpiv 5 ix')) 0 cp_L m1 with
        | Some (s, m2) => s = (0, 0) /\
            forallb (fun i => forallb (fun j => eqb Qcnum (vsum Qcnum 5 (fun k => mul Qcnum (elt m2 (lu_A 5 5) i k) (elt li_m (lu_A 5 5) k j)))
              (if i =? j then one Qcnum else zero Qcnum)) li_idx) li_idx = false
        | None => False end
    | None => False end) by (vm_compute; auto 10).
  destruct (armas_lufactor _ _ _ _ _ _ _ _) as [[[[err ix'] ce'] m1]|] eqn:R1; [|contradiction]. destruct W as (-> & -> & W).
  destruct (armas_luinverse _ _ _ _ _ _ _ _) as [[s m2]|] eqn:R2; [|contradiction]. destruct W as (-> & W).
  exists (li_E 2 ARMAS_ORECURSIVE 2), cp_L, ge_cb, (lu_A 5 5), (fun _ => 0), 0, li_m, 0, ix', 0, m1, m2, 12800.
  split; [destruct H1 as (X1 & X2 & X3); split; [exact X1|]; split; [cbn; Lia.lia|exact X3]|].
  do 3 (split; [first [assumption|reflexivity]|]). split; [reflexivity|]. split; [|split; [exact R1|split; [discriminate|split; [reflexivity|split; [exact R2|]]]]].
  - intros a (Y1 & Y2). cbn [rows lu_A e_lb e_p li_E] in *. split; [unfold cp_L; Lia.lia|]. intros (i & j & (Hi & Hj) & E). cbn [rows cols elems step lu_A] in *. Lia.lia.
  - intros H. apply Bool.diff_false_true. rewrite <- W. apply forallb_forall. intros i Hi. apply forallb_forall. intros j Hj. apply Qc_eqb.
    apply (H i j); cbn [rows lu_A]; cbn [In li_idx] in *; Lia.lia.
Qed.
Print Assumptions C92_recursive_refuted.

Example C92_nonvacuous : forall lb, lb = 0 \/ lb = 2 \/ lb = 64 -> exists err ix' ce' m1 m2,
  armas_lufactor Qcnum (lu_E lb) (lu_A 5 5) 5 (fun _ => 0) 0 cp_L li_m = Some ((err, ix', ce'), m1) /\ ix' 0 <> 1 /\
  armas_luinverse Qcnum (lu_E lb) (Some 12800) (Some (lu_A 5 5)) (Some (mkpiv 5 ix')) ce' cp_L m1 = Some ((0, ce'), m2) /\
  is_inverse Qcnum 5 (elt m2 (lu_A 5 5)) (elt li_m (lu_A 5 5)).
Proof.
  intros lb Hlb. destruct (lu_env lb 5 5) as (H1 & H2 & H3); try Lia.lia.
  assert (W : match armas_lufactor Qcnum (lu_E lb) (lu_A 5 5) 5 (fun _ => 0) 0 cp_L li_m with
    | Some ((err, ix', ce'), m1) => ce' = 0 /\ ix' 0 <> 1 | None => False end) by (destruct Hlb as [|[|]]; subst; vm_compute; (split; [reflexivity|discriminate])).
  destruct (armas_lufactor _ _ _ _ _ _ _ _) as [[[[err ix'] ce'] m1]|] eqn:R1; [|contradiction]. destruct W as (-> & W).
  destruct (C92_factor_invert_partial Qc Qcnum Qc_field Qc_eqb Qc_ordered (lu_E lb) cp_L ge_cb (lu_A 5 5) 12800 (fun _ => 0) 0 li_m err ix' 0 m1) as (m2 & R2 & V & _); auto; try discriminate.
  - reflexivity.
  - clear - Hlb. destruct Hlb as [|[|]]; subst; cbn; Lia.lia.
  - clear - Hlb. destruct Hlb as [|[|]]; subst; cbn; Lia.lia.
  - intros a (Y1 & Y2). assert (X : 1600 <= a < 1920) by (clear - Hlb Y1 Y2; destruct Hlb as [|[|]]; subst; cbn in Y1, Y2; Lia.lia). clear Y1 Y2 R1. split; [unfold cp_L; Lia.lia|]. split.
    + intros (i & j & (Hi & Hj) & E). cbn [rows cols elems step lu_A] in Hi, Hj, E. Lia.lia.
    + intros (Y3 & Y4). cbn in Y3, Y4. Lia.lia.
  - clear - Hlb. destruct Hlb as [|[|]]; subst; [left; reflexivity|right; right; right; vm_compute; reflexivity|right; left; cbn; Lia.lia].
  - exists err, ix', 0, m1, m2. auto.
Qed.
