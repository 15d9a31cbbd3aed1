(* Properties_InvSpd.v: the inverse of a positive definite matrix from its Cholesky factor (C93). *)
From Coq Require Import ZArith Lia Bool ZifyBool Ring Field List QArith Qcanon Reals.
From Verif Require Import Mem MView SpecView PView PSub Hoare MFlags MBase PUpd MNum SpecNum PSum PBlas2 PSym PFrame SpecTrm MGemm PGemm MTrsm PTrsm
  MLap PLap MChol SpecChol PCholM PChol MQr PQrF MInv PInvM PInv MLuInv PLuInv PLuInvM MInvSpd PInvSpdM PInvSpd PInvSpdB PInvSpdS Inst
  Properties_Copy Properties_Gemm Properties_Symm Properties_Lu Properties_Qr Properties_Chol Properties_LuInv.
Local Open Scope Z_scope.
Local Open Scope prog_scope.
Ltac lia := nobool; zlia.

(* the configurations for which the products of symmetric blocks (C84) and, for an upper triangle,
   the update of the diagonal block (C67) are right *)
Definition spd_blocks (E : lenv) (cb : cbuf) (up : bool) (A : view) : Prop :=
  symm_blocks up A (armas_cache_setup2 cb (e_mb E) (e_nb E) (e_kb E) (e_p E)) /\ (up = true -> upper_ok E cb A).

Section Q.
  Context {T : Type} (K : num T).
  Hypotheses (HF : is_field K) (HE : eqb_ok K).
  Let HR : is_ring K := Field_theory.F_R HF.
  Let HR' : ring_theory (zero K) (one K) (add K) (mul K) (sub K) (opp K) eq := HR.
  Add Ring KringPIS : HR'.

  Lemma sx_sym : forall lo A (m : Z -> T) i j, sx lo A m i j = sym (negb lo) m A i j.
  Proof.
    intros lo A m i j. unfold sx, sym, acc. destruct lo; cbn [negb].
    - destruct (j <=? i) eqn:X; [rewrite Z.max_l, Z.min_r by Lia.lia|rewrite Z.max_r, Z.min_l by Lia.lia]; reflexivity.
    - destruct (i <=? j) eqn:X; [rewrite Z.max_r, Z.min_l by Lia.lia|rewrite Z.max_l, Z.min_r by Lia.lia]; reflexivity.
  Qed.

  Lemma chol_lf : forall lo A (m : Z -> T) i j, chol_elt K (negb lo) m A i j = vsum K (cols A) (fun q => mul K (lf K lo A m i q) (lf K lo A m j q)).
  Proof.
    intros lo A m i j. unfold chol_elt. apply vsum_ext. intros q Hq. rewrite opt_low, opt_low_t. unfold low, lf, acc, gv. destruct lo; reflexivity.
  Qed.

  Lemma pinv_inverse : forall E cb lo A W w (m m' : Z -> T) (S : Z -> Z -> T), rows A = cols A -> wf A ->
    (forall i j, pos A i j -> chol_elt K (negb lo) m A i j = S i j) -> pinv K E cb lo A W w m 0 m' ->
    is_inverse K (rows A) (sym (negb lo) m' A) S.
  Proof.
    intros E cb lo A W w m m' S Sq WA HS (_ & H & _). rewrite Sq. set (n := cols A) in *. rewrite Z.sub_0_r in H.
    assert (SS : forall i j, 0 <= i < n -> 0 <= j < n -> S i j = S j i).
    { intros i j Hi Hj. rewrite <- !HS by (split; [rewrite Sq|]; fold n; lia). rewrite !chol_lf. apply vsum_ext. intros q Hq. ring. }
    assert (XS : forall i j, sym (negb lo) m' A i j = sym (negb lo) m' A j i).
    { intros i j. rewrite <- !sx_sym. unfold sx. rewrite (Z.max_comm i), (Z.min_comm i). reflexivity. }
    assert (H1 : forall i j, 0 <= i < n -> 0 <= j < n -> vsum K n (fun k => mul K (sym (negb lo) m' A i k) (S k j)) = dlt K i j).
    { intros i j Hi Hj. rewrite <- (H i j Hi Hj). apply vsum_ext. intros p Hp. rewrite !Z.add_0_l, sx_sym. f_equal.
      rewrite <- HS by (split; [rewrite Sq|]; fold n; lia). rewrite chol_lf. apply vsum_ext. intros q Hq. reflexivity. }
    intros i j Hi Hj. split; [apply H1; auto|].
    change (if i =? j then one K else zero K) with (dlt K i j). unfold dlt. rewrite (Z.eqb_sym i j). change (if j =? i then one K else zero K) with (dlt K j i).
    rewrite <- (H1 j i Hj Hi). apply vsum_ext. intros k Hk. rewrite (XS k j), (SS i k) by auto. ring.
  Qed.

  Lemma cholinverse_w_ok : forall (E : lenv) L cb A flags w ce (m : Z -> T) (S : Z -> Z -> T),
    let n := w_bytes w - w_offset w in let lb := luinv_lb E (rows A) (n / e_p E) in let up := negb (has flags ARMAS_LOWER) in
    env_ok E L cb A -> wf A -> allocated L A -> rows A = cols A -> 0 <= e_lb E ->
    w_bytes w <> 0 -> 0 <= w_offset w <= w_bytes w -> w_bytes w < 2 ^ 64 -> rows A * e_p E <= n -> armas_wptr w mod e_p E = 0 ->
    (forall a, in_bytes (armas_wptr w) n (e_p E) a -> L a = true /\ ~ cell A a /\ ~ inbuf cb (e_p E) a) ->
    lb = 0 \/ rows A <= lb \/ spd_blocks E cb up A ->
    (forall i, 0 <= i < rows A -> elt m A i i <> zero K) ->
    (forall i j, pos A i j -> chol_elt K up m A i j = S i j) ->
    exists m', armas_cholinverse_w K E (Some A) flags (Some w) ce L m = Some ((0, ce, Some w), m') /\
      is_inverse K (rows A) (sym up m' A) S /\
      (forall i j, pos A i j -> ~ intri up i j -> elt m' A i j = elt m A i j) /\
      (forall a, ~ cell A a -> ~ in_bytes (armas_wptr w) n (e_p E) a -> ~ inbuf cb (e_p E) a -> m' a = m a).
  Proof.
    intros E L cb A flags w ce m S n lb up EO WA LA Sq Hlb0 Hw0 Ho Hb Hsz Hal HW Hlb NZ H0. pose proof WA as (Hr & Hc & _).
    assert (Hp : 0 < e_p E) by apply EO.
    assert (EB : armas_wbytes w = n) by (unfold armas_wbytes, u64; apply Z.mod_small; lia).
    set (ne := n / e_p E). set (W := armas_wptr w / e_p E).
    assert (HNn : rows A <= ne) by (apply Z.div_le_lower_bound; lia).
    assert (HW' : forall a, ws W ne a -> in_bytes (armas_wptr w) n (e_p E) a) by (intros a Ha; apply bytes_ws; auto).
    assert (X : wp (if (lb =? 0) || (rows A <=? lb) then
        if has flags ARMAS_LOWER then unblk_invpsd_lower K E A (armas_make ne 1 ne W) ce else unblk_invpsd_upper K E A (armas_make ne 1 ne W) ce
        else if has flags ARMAS_LOWER then blk_invpsd_lower K E A (armas_make ne 1 ne W) lb ce else blk_invpsd_upper K E A (armas_make ne 1 ne W) lb ce) L m
      (fun s m' => s = (0, ce) /\ pinv K E cb (has flags ARMAS_LOWER) A W ne m 0 m')).
    { destruct ((lb =? 0) || (rows A <=? lb)) eqn:C0.
      2:{ assert (Hlb3 : spd_blocks E cb up A) by (destruct Hlb as [C|[C|C]]; [exfalso; Lia.lia|exfalso; Lia.lia|exact C]). destruct Hlb3 as (SB & UO).
          assert (HW3 : forall a, W <= a < W + ne -> L a = true /\ ~ cell A a /\ ~ inbuf cb (e_p E) a) by (intros a Ha; apply HW, HW'; exact Ha).
          assert (Z0 : 0 <= lb) by (unfold lb, luinv_lb; destruct (_ && _); [|lia]; cbv zeta; destruct (_ <? 32) eqn:C3; Lia.lia).
          assert (Z1 : 0 < lb) by Lia.lia.
          apply (pblk_wp K HF HE E L cb (has flags ARMAS_LOWER) A W ne lb EO (conj WA LA) Sq Z0 HW3); auto.
          - intros Fl. apply UO. unfold up. rewrite Fl. reflexivity.
          - rewrite <- Sq. unfold lb, luinv_lb. fold n ne. destruct (Z.gtb_spec (rows A) (e_lb E)) as [C1|C1]; cbn [andb].
            + destruct (Z.ltb_spec ne (e_lb E * rows A)) as [C2|C2]; [|lia]. cbv zeta. destruct (_ <? 32) eqn:C3; [lia|].
              unfold and_not3. assert (0 < rows A) by lia.
              pose proof (Z.mod_pos_bound (ne / rows A) 4). pose proof (Z_div_mod_eq_full ne (rows A)). pose proof (Z.mod_pos_bound ne (rows A)). nia.
            + exfalso. revert C0. unfold lb, luinv_lb. replace (rows A >? e_lb E) with false by Lia.lia. cbn [andb]. intros C0. Lia.lia.
          - intros i Hi. apply NZ. lia. }
      apply (punblk_wp K HF HE E L cb (has flags ARMAS_LOWER) A W ne EO (conj WA LA) Sq).
      - intros a Ha. destruct (HW a) as (X1 & X2 & X3); [apply HW'; exact Ha|]. auto.
      - lia.
      - lia.
      - intros i Hi. apply NZ. lia. }
    destruct X as (s & m1 & R1 & -> & HI).
    assert (I1 := pinv_inverse E cb (has flags ARMAS_LOWER) A W ne m m1 S Sq WA H0 HI). destruct HI as (HU & _ & HO).
    exists m1. split; [|split; [exact I1|split]].
    - unfold armas_cholinverse_w. replace (w_bytes w =? 0) with false by lia. rewrite Sq, Z.eqb_refl. cbn [negb].
      rewrite EB. cbv zeta. replace (n <? cols A * e_p E) with false by (rewrite <- Sq; lia). rewrite <- Sq. fold ne W. fold ne in lb. fold lb.
      rewrite run_bind, R1. reflexivity.
    - intros i j (Hi & Hj) Ht. unfold up, acc, intri in *. destruct (has flags ARMAS_LOWER); cbn [negb] in Ht; apply HU; lia.
    - intros a Y1 Y2 Y3. apply HO; [exact Y1| |exact Y3]. intros Y. apply Y2. apply HW'. exact Y.
  Qed.

  (* a zero on the diagonal of the factor *)
  Lemma cholinverse_w_sing : forall (E : lenv) L cb A flags w ce (m : Z -> T),
    let n := w_bytes w - w_offset w in let lb := luinv_lb E (rows A) (n / e_p E) in let up := negb (has flags ARMAS_LOWER) in
    env_ok E L cb A -> wf A -> allocated L A -> rows A = cols A -> 0 <= e_lb E ->
    w_bytes w <> 0 -> 0 <= w_offset w <= w_bytes w -> w_bytes w < 2 ^ 64 -> rows A * e_p E <= n -> armas_wptr w mod e_p E = 0 ->
    (forall a, in_bytes (armas_wptr w) n (e_p E) a -> L a = true /\ ~ cell A a /\ ~ inbuf cb (e_p E) a) ->
    lb = 0 \/ rows A <= lb \/ spd_blocks E cb up A ->
    (exists i, 0 <= i < rows A /\ elt m A i i = zero K) ->
    exists m', armas_cholinverse_w K E (Some A) flags (Some w) ce L m = Some ((-1, ARMAS_ESINGULAR, Some w), m') /\
      (forall i j, pos A i j -> ~ intri up i j -> elt m' A i j = elt m A i j) /\
      (forall a, ~ cell A a -> ~ in_bytes (armas_wptr w) n (e_p E) a -> ~ inbuf cb (e_p E) a -> m' a = m a).
  Proof.
    intros E L cb A flags w ce m n lb up EO WA LA Sq Hlb0 Hw0 Ho Hb Hsz Hal HW Hlb (i0 & Hi0 & Zi0). pose proof WA as (Hr & Hc & _).
    assert (Hp : 0 < e_p E) by apply EO.
    assert (EB : armas_wbytes w = n) by (unfold armas_wbytes, u64; apply Z.mod_small; lia).
    set (ne := n / e_p E). set (W := armas_wptr w / e_p E).
    assert (HNn : rows A <= ne) by (apply Z.div_le_lower_bound; lia).
    assert (HW' : forall a, ws W ne a -> in_bytes (armas_wptr w) n (e_p E) a) by (intros a Ha; apply bytes_ws; auto).
    assert (X : wp (if (lb =? 0) || (rows A <=? lb) then
        if has flags ARMAS_LOWER then unblk_invpsd_lower K E A (armas_make ne 1 ne W) ce else unblk_invpsd_upper K E A (armas_make ne 1 ne W) ce
        else if has flags ARMAS_LOWER then blk_invpsd_lower K E A (armas_make ne 1 ne W) lb ce else blk_invpsd_upper K E A (armas_make ne 1 ne W) lb ce) L m
      (fun s m' => sres K A m 0 ce s /\ sfr E cb (has flags ARMAS_LOWER) A W ne m 0 m')).
    { destruct ((lb =? 0) || (rows A <=? lb)) eqn:C0.
      2:{ assert (Hlb3 : spd_blocks E cb up A) by (destruct Hlb as [C|[C|C]]; [exfalso; Lia.lia|exfalso; Lia.lia|exact C]). destruct Hlb3 as (SB & UO).
          assert (HW3 : forall a, W <= a < W + ne -> L a = true /\ ~ cell A a /\ ~ inbuf cb (e_p E) a) by (intros a Ha; apply HW, HW'; exact Ha).
          assert (Z0 : 0 <= lb) by (unfold lb, luinv_lb; destruct (_ && _); [|lia]; cbv zeta; destruct (_ <? 32) eqn:C3; Lia.lia).
          assert (Z1 : 0 < lb) by Lia.lia.
          apply (sblk_wp K HF HE E L cb (has flags ARMAS_LOWER) A W ne lb EO (conj WA LA) Sq Z0 HW3); auto.
          - intros Fl. apply UO. unfold up. rewrite Fl. reflexivity.
          - rewrite <- Sq. unfold lb, luinv_lb. fold n ne. destruct (Z.gtb_spec (rows A) (e_lb E)) as [C1|C1]; cbn [andb].
            + destruct (Z.ltb_spec ne (e_lb E * rows A)) as [C2|C2]; [|lia]. cbv zeta. destruct (_ <? 32) eqn:C3; [lia|].
              unfold and_not3. assert (0 < rows A) by lia.
              pose proof (Z.mod_pos_bound (ne / rows A) 4). pose proof (Z_div_mod_eq_full ne (rows A)). pose proof (Z.mod_pos_bound ne (rows A)). nia.
            + exfalso. revert C0. unfold lb, luinv_lb. replace (rows A >? e_lb E) with false by Lia.lia. cbn [andb]. intros C0. Lia.lia.
        }
      apply (sunblk_wp K HF HE E L cb (has flags ARMAS_LOWER) A W ne EO (conj WA LA) Sq).
      - intros a Ha. destruct (HW a) as (X1 & X2 & X3); [apply HW'; exact Ha|]. auto.
      - lia.
      - lia. }
    destruct X as (s & m1 & R1 & [(_ & NZ)|(-> & _)] & HU & HO); [exfalso; apply (NZ i0); [lia|exact Zi0]|].
    exists m1. split; [|split].
    - unfold armas_cholinverse_w. replace (w_bytes w =? 0) with false by lia. rewrite Sq, Z.eqb_refl. cbn [negb].
      rewrite EB. cbv zeta. replace (n <? cols A * e_p E) with false by (rewrite <- Sq; lia). rewrite <- Sq. fold ne W. fold ne in lb. fold lb.
      rewrite run_bind, R1. reflexivity.
    - intros i j (Hi & Hj) Ht. unfold up, acc, intri in *. destruct (has flags ARMAS_LOWER); cbn [negb] in Ht; apply HU; lia.
    - intros a Y1 Y2 Y3. apply HO; [exact Y1| |exact Y3]. intros Y. apply Y2. apply HW'. exact Y.
  Qed.
End Q.

(* ---- C93: armas_cholinverse_w, armas_cholinverse ---- *)
(* one triangle of A holds the factor of S; it is replaced by that triangle of the inverse of S.
   lb is the block size chosen *)
Theorem C93_cholinverse_w_partial : forall T (K : num T), is_field K -> eqb_ok K ->
  forall (E : lenv) L cb A flags w ce (m : Z -> T) (S : Z -> Z -> T),
  let n := w_bytes w - w_offset w in let lb := luinv_lb E (rows A) (n / e_p E) in let up := negb (has flags ARMAS_LOWER) in
  env_ok E L cb A -> wf A -> allocated L A -> rows A = cols A -> 0 <= e_lb E ->
  w_bytes w <> 0 -> 0 <= w_offset w <= w_bytes w -> w_bytes w < 2 ^ 64 -> rows A * e_p E <= n -> armas_wptr w mod e_p E = 0 ->
  (forall a, in_bytes (armas_wptr w) n (e_p E) a -> L a = true /\ ~ cell A a /\ ~ inbuf cb (e_p E) a) ->
  lb = 0 \/ rows A <= lb \/ spd_blocks E cb up A ->
  (forall i, 0 <= i < rows A -> elt m A i i <> zero K) ->
  (forall i j, pos A i j -> chol_elt K up m A i j = S i j) ->
  exists m', armas_cholinverse_w K E (Some A) flags (Some w) ce L m = Some ((0, ce, Some w), m') /\
    is_inverse K (rows A) (sym up m' A) S /\
    (forall i j, pos A i j -> ~ intri up i j -> elt m' A i j = elt m A i j) /\
    (forall a, ~ cell A a -> ~ in_bytes (armas_wptr w) n (e_p E) a -> ~ inbuf cb (e_p E) a -> m' a = m a).
Proof. intros T K HF HE. exact (cholinverse_w_ok K HF HE). Qed.
Print Assumptions C93_cholinverse_w_partial.

(* with its own workspace, for which calloc returns b *)
Theorem C93_cholinverse_partial : forall T (K : num T), is_field K -> eqb_ok K ->
  forall (E : lenv) L cb A flags b ce (m : Z -> T) (S : Z -> Z -> T),
  let size := rows A * Z.max 1 (e_lb E) * e_p E in let up := negb (has flags ARMAS_LOWER) in
  env_ok E L cb A -> wf A -> allocated L A -> rows A = cols A -> 0 < rows A -> 0 <= e_lb E ->
  size < 2 ^ 64 -> b mod e_p E = 0 ->
  (forall a, in_bytes b size (e_p E) a -> L a = true /\ ~ cell A a /\ ~ inbuf cb (e_p E) a) ->
  e_lb E = 0 \/ rows A <= e_lb E \/ spd_blocks E cb up A ->
  (forall i, 0 <= i < rows A -> elt m A i i <> zero K) ->
  (forall i j, pos A i j -> chol_elt K up m A i j = S i j) ->
  exists m', armas_cholinverse K E (Some b) (Some A) flags ce L m = Some ((0, ce), m') /\
    is_inverse K (rows A) (sym up m' A) S /\
    (forall i j, pos A i j -> ~ intri up i j -> elt m' A i j = elt m A i j) /\
    (forall a, ~ cell A a -> ~ in_bytes b size (e_p E) a -> ~ inbuf cb (e_p E) a -> m' a = m a).
Proof.
  intros T K HF HE E L cb A flags b ce m S size up EO WA LA Sq Hr Hlb0 Hsz Hal HW Hlb NZ H0.
  assert (Hp : 0 < e_p E) by apply EO.
  set (n := if (e_lb E >? 0) && (rows A >? e_lb E) then e_lb E * rows A else rows A).
  assert (Hn : rows A <= n /\ n * e_p E <= size).
  { unfold n, size. destruct (Z.gtb_spec (e_lb E) 0) as [E1|E1]; cbn [andb]; [destruct (rows A >? e_lb E); nia|nia]. }
  set (w := armas_walloc b (n * e_p E)).
  assert (Hw : forall a, in_bytes (armas_wptr w) (w_bytes w - w_offset w) (e_p E) a -> in_bytes b size (e_p E) a).
  { intros a. unfold w, armas_walloc, armas_wptr, in_bytes. cbn [w_buf w_bytes w_offset]. lia. }
  assert (Ed : (w_bytes w - w_offset w) / e_p E = n) by (unfold w, armas_walloc; cbn [w_bytes w_offset]; rewrite Z.sub_0_r; apply Z.div_mul; lia).
  assert (Elb : luinv_lb E (rows A) n = e_lb E).
  { unfold luinv_lb, n. destruct (Z.gtb_spec (rows A) (e_lb E)) as [E1|E1]; [|rewrite andb_false_l; reflexivity]. rewrite andb_true_l, andb_true_r.
    destruct (Z.gtb_spec (e_lb E) 0) as [E2|E2]; [rewrite Z.ltb_irrefl; reflexivity|].
    replace (rows A <? e_lb E * rows A) with false by (symmetry; apply Z.ltb_ge; nia). reflexivity. }
  destruct (C93_cholinverse_w_partial T K HF HE E L cb A flags w ce m S) as (m' & R1 & R2 & R3 & R4);
    [exact EO|exact WA|exact LA|exact Sq|exact Hlb0|cbn; nia|cbn; nia|cbn; lia|cbn [w armas_walloc w_bytes w_offset]; nia|
     unfold w, armas_walloc, armas_wptr; cbn [w_buf w_offset]; rewrite Z.add_0_r; exact Hal|intros a Ha; apply HW; auto| |exact NZ|exact H0|].
  { rewrite Ed, Elb. exact Hlb. }
  exists m'. split; [|split; [exact R2|split; [exact R3|]]].
  - assert (Q : armas_cholinverse_w K E (Some A) flags (Some (mkwbuf 0 0 0)) ce L m = Some ((0, ce, Some (mkwbuf 0 (n * e_p E) 0)), m)) by reflexivity.
    unfold armas_cholinverse. rewrite run_bind, Q. cbv iota beta. cbn [fst snd w_bytes]. change (0 <? 0) with false. cbv iota zeta.
    replace (n * e_p E >? 0) with true by (symmetry; apply Z.gtb_lt; nia).
    rewrite run_bind. fold w. rewrite R1. reflexivity.
  - intros a X1 X2 X3. apply R4; auto.
Qed.
Print Assumptions C93_cholinverse_partial.

(* factor a positive definite matrix, then invert it *)
Theorem C93_factor_invert_partial : forall T (K : num T), is_field K -> eqb_ok K -> is_ordered K -> sqrt_ok K ->
  forall (E : lenv) L cb A flags b ce (m : Z -> T),
  let size := rows A * Z.max 1 (e_lb E) * e_p E in let up := negb (has flags ARMAS_LOWER) in
  env_ok E L cb A -> wf A -> allocated L A -> rows A = cols A -> 0 < rows A -> 0 <= e_lb E ->
  size < 2 ^ 64 -> b mod e_p E = 0 ->
  (forall a, in_bytes b size (e_p E) a -> L a = true /\ ~ cell A a /\ ~ inbuf cb (e_p E) a) ->
  e_lb E = 0 \/ rows A <= e_lb E \/ spd_blocks E cb up A ->
  pos_def K (cols A) (sym up m A) ->
  exists m1 m2, armas_cholesky K E A flags ce L m = Some ((0, ce), m1) /\
    armas_cholinverse K E (Some b) (Some A) flags ce L m1 = Some ((0, ce), m2) /\
    is_inverse K (rows A) (sym up m2 A) (sym up m A) /\
    (forall i j, pos A i j -> ~ intri up i j -> elt m2 A i j = elt m A i j) /\
    (forall a, ~ cell A a -> ~ in_bytes b size (e_p E) a -> ~ inbuf cb (e_p E) a -> m2 a = m a).
Proof.
  intros T K HF HE HO HS E L cb A flags b ce m size up EO WA LA Sq Hr Hlb0 Hsz Hal HW Hlb PD.
  assert (X : exists m1, armas_cholesky K E A flags ce L m = Some ((0, ce), m1) /\ is_factor K up m1 A (sym up m A) /\
    (forall i j, pos A i j -> ~ intri up i j -> elt m1 A i j = elt m A i j) /\ (forall a, ~ cell A a -> ~ inbuf cb (e_p E) a -> m1 a = m a)).
  { unfold up in *. destruct (has flags ARMAS_LOWER) eqn:Fl; cbn [negb] in *.
    - destruct (C51_cholesky_lower T K HF HE HO HS E L cb A flags ce m) as (r & ce' & m1 & R & P1 & _ & _ & P4 & P5); auto.
      destruct (P1 PD) as (-> & -> & F). exists m1. split; [exact R|]. split; [exact F|]. split; [|exact P5]. intros i j Hp Ht. apply P4; auto. unfold intri in Ht. lia.
    - destruct (C51_cholesky_upper_partial T K HF HE HO HS E L cb A flags ce m) as (r & ce' & m1 & R & P1 & _ & _ & P4 & P5); auto.
      { intros Y. destruct Hlb as [C|[C|(_ & C)]]; [exfalso; lia|exfalso; lia|apply C; reflexivity]. }
      destruct (P1 PD) as (-> & -> & F). exists m1. split; [exact R|]. split; [exact F|]. split; [|exact P5]. intros i j Hp Ht. apply P4; auto. unfold intri in Ht. lia. }
  destruct X as (m1 & R & (F1 & F2) & F3 & F4).
  destruct (C93_cholinverse_partial T K HF HE E L cb A flags b ce m1 (sym up m A)) as (m2 & R2 & V & O1 & O2); auto.
  - intros i Hi Z0. specialize (F2 i ltac:(lia)). rewrite Z0 in F2. destruct HO as ((Y & _) & _). rewrite Y in F2. discriminate.
  - exists m1, m2. split; [exact R|]. split; [exact R2|]. split; [exact V|]. split.
    + intros i j Hp Ht. fold up in O1. rewrite O1, F3; auto.
    + intros a X1 X2 X3. rewrite O2, F4; auto.
Qed.
Print Assumptions C93_factor_invert_partial.

(* a zero on the diagonal of the factor is reported, and only the triangle that held the factor, the
   workspace and the scratch buffer may have changed *)
Theorem C93_singular_partial : forall T (K : num T), is_field K -> eqb_ok K ->
  forall (E : lenv) L cb A flags w ce (m : Z -> T),
  let n := w_bytes w - w_offset w in let lb := luinv_lb E (rows A) (n / e_p E) in let up := negb (has flags ARMAS_LOWER) in
  env_ok E L cb A -> wf A -> allocated L A -> rows A = cols A -> 0 <= e_lb E ->
  w_bytes w <> 0 -> 0 <= w_offset w <= w_bytes w -> w_bytes w < 2 ^ 64 -> rows A * e_p E <= n -> armas_wptr w mod e_p E = 0 ->
  (forall a, in_bytes (armas_wptr w) n (e_p E) a -> L a = true /\ ~ cell A a /\ ~ inbuf cb (e_p E) a) ->
  lb = 0 \/ rows A <= lb \/ spd_blocks E cb up A ->
  (exists i, 0 <= i < rows A /\ elt m A i i = zero K) ->
  exists m', armas_cholinverse_w K E (Some A) flags (Some w) ce L m = Some ((-1, ARMAS_ESINGULAR, Some w), m') /\
    (forall i j, pos A i j -> ~ intri up i j -> elt m' A i j = elt m A i j) /\
    (forall a, ~ cell A a -> ~ in_bytes (armas_wptr w) n (e_p E) a -> ~ inbuf cb (e_p E) a -> m' a = m a).
Proof. intros T K HF HE. exact (cholinverse_w_sing K HF HE). Qed.
Print Assumptions C93_singular_partial.

(* bad arguments are reported and nothing is written *)
Theorem C93_errors : forall T (K : num T) (E : lenv) L A flags wb ce (m : Z -> T),
  let bad e := exists w', armas_cholinverse_w K E A flags wb ce L m = Some ((-1, e, w'), m) in
  (A = None -> bad ARMAS_EINVAL /\ forall ptr, armas_cholinverse K E ptr A flags ce L m = Some ((-1, ARMAS_EINVAL), m)) /\
  (forall V, A = Some V -> match wb with Some w => w_bytes w <> 0 | None => True end ->
     (rows V <> cols V -> bad ARMAS_ESIZE) /\
     (rows V = cols V ->
      match wb with Some w => 0 <= w_offset w <= w_bytes w /\ w_bytes w < 2 ^ 64 /\ w_bytes w - w_offset w < rows V * e_p E | None => 0 < rows V * e_p E end -> bad ARMAS_EWORK)) /\
  (forall V, A = Some V -> 0 < rows V -> 0 < e_p E -> armas_cholinverse K E None A flags ce L m = Some ((-1, ARMAS_EMEMORY), m)).
Proof.
  intros T K E L A flags wb ce m bad. split; [|split].
  - intros ->. split; [eexists; reflexivity|reflexivity].
  - intros V -> Hw. unfold bad, armas_cholinverse_w.
    replace (match wb with Some w => w_bytes w =? 0 | None => false end) with false by (destruct wb; [symmetry; apply Z.eqb_neq; exact Hw|reflexivity]).
    split.
    + intros H. exists wb. apply Z.eqb_neq in H. rewrite H. reflexivity.
    + intros Sq Hb. rewrite Sq, Z.eqb_refl. cbn [negb]. cbv zeta. rewrite <- Sq.
      replace (match wb with Some w => armas_wbytes w | None => 0 end <? rows V * e_p E) with true; [eexists; reflexivity|].
      symmetry. apply Z.ltb_lt. destruct wb; [|exact Hb]. destruct Hb as (B1 & B2 & B3). unfold armas_wbytes, u64. rewrite Z.mod_small by lia. exact B3.
  - intros V -> Hr Hp. unfold armas_cholinverse. rewrite run_bind.
    set (n := if (e_lb E >? 0) && (rows V >? e_lb E) then e_lb E * rows V else rows V).
    assert (Hn : 0 < n).
    { unfold n. destruct (Z.gtb_spec (e_lb E) 0) as [E1|E1]; cbn [andb]; [destruct (rows V >? e_lb E); nia|nia]. }
    assert (Q : armas_cholinverse_w K E (Some V) flags (Some (mkwbuf 0 0 0)) ce L m = Some ((0, ce, Some (mkwbuf 0 (n * e_p E) 0)), m)) by reflexivity.
    rewrite Q. cbv iota beta. cbn [fst snd w_bytes]. change (0 <? 0) with false. cbv iota zeta.
    replace (n * e_p E >? 0) with true by (symmetry; apply Z.gtb_lt; nia). reflexivity.
Qed.
Print Assumptions C93_errors.

(* a factor with 2 on the diagonal *)
Definition is_m (a : Z) : Qc := if (a - 300) mod 13 =? 0 then Q2Qc 2 else Q2Qc (inject_Z ((a * a * 7 + a * 3 + (a mod 5) * 11) mod 3)).
Definition is_A : view := mkview 300 12 12 12.
Definition is_E : lenv := mklenv 20 1024 256 0 (Some ge_cb) 64 64 32 8 2.
Definition is_idx : list Z := 0 :: 1 :: 2 :: 3 :: 4 :: 5 :: 6 :: 7 :: 8 :: 9 :: 10 :: 11 :: nil.

(* with kb smaller than nb, so that spd_blocks does not hold, the blocked version returns 0 and a matrix that is not the
   inverse, in either triangle; every other hypothesis of C93_cholinverse_partial is met *)
Theorem C93_blocks_refuted : forall flags, flags = ARMAS_LOWER \/ flags = ARMAS_UPPER -> exists E L cb A b m m',
  let size := rows A * Z.max 1 (e_lb E) * e_p E in let up := negb (has flags ARMAS_LOWER) in
  env_ok E L cb A /\ wf A /\ allocated L A /\ rows A = cols A /\ 0 < rows A /\ 0 <= e_lb E /\ size < 2 ^ 64 /\ b mod e_p E = 0 /\
  (forall a, in_bytes b size (e_p E) a -> L a = true /\ ~ cell A a /\ ~ inbuf cb (e_p E) a) /\
  (forall i, 0 <= i < rows A -> elt m A i i <> zero Qcnum) /\
  armas_cholinverse Qcnum E (Some b) (Some A) flags 0 L m = Some ((0, 0), m') /\
  ~ is_inverse Qcnum (rows A) (sym up m' A) (chol_elt Qcnum up m A).
Proof.
  intros flags Hf. destruct (ge_ok 1 1 1 1 1 1 12 12 12) as (X1 & X2 & X3 & X4 & X5 & X6 & X7 & X8 & X9); try Lia.lia.
  assert (W : match armas_cholinverse Qcnum is_E (Some 12800) (Some is_A) flags 0 cp_L is_m with
    | Some (s, m2) => s = (0, 0) /\
        forallb (fun i => forallb (fun j => eqb Qcnum (vsum Qcnum 12 (fun k => mul Qcnum (sym (negb (has flags ARMAS_LOWER)) m2 is_A i k)
            (chol_elt Qcnum (negb (has flags ARMAS_LOWER)) is_m is_A k j)))
          (if i =? j then one Qcnum else zero Qcnum)) is_idx) is_idx = false
    | None => False end) by (destruct Hf; subst; vm_compute; (split; reflexivity)).
  destruct (armas_cholinverse _ _ _ _ _ _ _ _) as [[s m2]|] eqn:R2; [|contradiction]. destruct W as (-> & W).
  exists is_E, cp_L, ge_cb, is_A, 12800, is_m, m2. cbv zeta.
  split.
  { unfold env_ok, is_E, is_A. cbn [e_b1 e_b2 e_fuel e_cb e_mb e_nb e_kb e_p rows cols].
    repeat (split; [first [reflexivity|cbn; Lia.lia]|]). unfold buf_ok. repeat (split; [first [reflexivity|cbn; Lia.lia]|]). split.
    - intros a Ha. specialize (X9 a Ha). tauto.
    - vm_compute. repeat split; auto; discriminate. }
  split; [assumption|]. split; [assumption|]. split; [reflexivity|]. split; [reflexivity|]. split; [discriminate|].
  split; [reflexivity|]. split; [reflexivity|]. split; [|split; [|split; [exact R2|]]].
  - intros a (Y1 & Y2). cbn [rows is_A e_lb e_p is_E] in *. change (Z.max 1 2) with 2 in *. split; [unfold cp_L; Lia.lia|]. split.
    + intros (i & j & (Hi & Hj) & E). cbn [rows cols elems step is_A] in *. Lia.lia.
    + unfold inbuf. cbn [c_data c_len ge_cb]. Lia.lia.
  - intros i Hi. cbn [rows is_A] in Hi. unfold elt, is_m, is_A. cbn [elems step]. replace (300 + i * 12 + i - 300) with (i * 13) by Lia.lia.
    rewrite Z.mod_mul by Lia.lia. discriminate.
  - intros H. apply Bool.diff_false_true. rewrite <- W. apply forallb_forall. intros i Hi. apply forallb_forall. intros j Hj. apply Qc_eqb.
    apply (H i j); cbn [rows is_A]; cbn [In is_idx] in *; Lia.lia.
Qed.
Print Assumptions C93_blocks_refuted.

Example C93_nonvacuous : forall flags lb, flags = ARMAS_LOWER \/ flags = ARMAS_UPPER -> lb = 0 \/ lb = 2 \/ lb = 64 -> exists m1 m2,
  armas_cholesky Rnum (lu_E lb) (lu_A 5 5) flags 0 cp_L ch_m = Some ((0, 0), m1) /\
  armas_cholinverse Rnum (lu_E lb) (Some 12800) (Some (lu_A 5 5)) flags 0 cp_L m1 = Some ((0, 0), m2) /\
  is_inverse Rnum 5 (sym (negb (has flags ARMAS_LOWER)) m2 (lu_A 5 5)) (sym (negb (has flags ARMAS_LOWER)) ch_m (lu_A 5 5)).
Proof.
  intros flags lb Hf Hlb. destruct (lu_env lb 5 5) as (H1 & H2 & H3); try Lia.lia.
  destruct (C93_factor_invert_partial R Rnum R_field R_eqb R_ordered R_sqrt_ok (lu_E lb) cp_L ge_cb (lu_A 5 5) flags 12800 0 ch_m) as (m1 & m2 & R1 & R2 & V & _); auto.
  - reflexivity.
  - clear - Hlb. destruct Hlb as [|[|]]; subst; cbn; Lia.lia.
  - clear - Hlb. destruct Hlb as [|[|]]; subst; cbn; Lia.lia.
  - intros a (Y1 & Y2). assert (X : 1600 <= a < 1920) by (clear - Hlb Y1 Y2; destruct Hlb as [|[|]]; subst; cbn in Y1, Y2; Lia.lia). clear Y1 Y2. split; [unfold cp_L; Lia.lia|]. split.
    + intros (i & j & (Hi & Hj) & E). cbn [rows cols elems step lu_A] in Hi, Hj, E. Lia.lia.
    + intros (Y3 & Y4). cbn in Y3, Y4. Lia.lia.
  - clear - Hlb. destruct Hlb as [|[|]]; subst; [left; reflexivity| |right; left; cbn; Lia.lia].
    right. right. split; [apply C84_default_config; [cbn; Lia.lia|right; reflexivity]|intros _ _; vm_compute; reflexivity].
  - apply ch_pd.
  - exists m1, m2. auto.
Qed.

(* the same sizes with a zero as the fourth diagonal element *)
Example C93_singular_nonvacuous : forall flags lb, flags = ARMAS_LOWER \/ flags = ARMAS_UPPER -> lb = 0 \/ lb = 2 \/ lb = 64 ->
  let m := fun a => if a =? 224 then 0%R else 1%R in
  exists m', armas_cholinverse_w Rnum (lu_E lb) (Some (lu_A 5 5)) flags (Some (mkwbuf 12800 (5 * Z.max 1 lb * 8) 0)) 0 cp_L m =
    Some ((-1, ARMAS_ESINGULAR, Some (mkwbuf 12800 (5 * Z.max 1 lb * 8) 0)), m').
Proof.
  intros flags lb Hf Hlb m. destruct (lu_env lb 5 5) as (H1 & H2 & H3); try Lia.lia.
  destruct (C93_singular_partial R Rnum R_field R_eqb (lu_E lb) cp_L ge_cb (lu_A 5 5) flags (mkwbuf 12800 (5 * Z.max 1 lb * 8) 0) 0 m) as (m' & R1 & _); auto.
  1-5: clear - Hlb; destruct Hlb as [|[|]]; subst; cbn; Lia.lia.
  - intros a (Y1 & Y2). assert (X : 1600 <= a < 1920) by (clear - Hlb Y1 Y2; destruct Hlb as [|[|]]; subst; cbn in Y1, Y2; Lia.lia). clear Y1 Y2. split; [unfold cp_L; Lia.lia|]. split.
    + intros (i & j & (Hi & Hj) & E). cbn [rows cols elems step lu_A] in Hi, Hj, E. Lia.lia.
    + intros (Y3 & Y4). cbn in Y3, Y4. Lia.lia.
  - clear - Hlb. destruct Hlb as [|[|]]; subst; [left; vm_compute; reflexivity| |right; left; vm_compute; discriminate].
    right. right. split; [apply C84_default_config; [cbn; Lia.lia|right; reflexivity]|intros _ _; vm_compute; reflexivity].
  - exists 3. split; [cbn; Lia.lia|reflexivity].
  - exists m'. exact R1.
Qed.
