(* Properties_Gemm.v: C24 general matrix-matrix product. *)
From Coq Require Import ZArith Lia Ring Bool ZifyBool.
From Verif Require Import Mem MView SpecView PView PSub Hoare MFlags MCopy PUpd PCopy Properties_Copy
  MNum SpecNum MBlas1 PSum PBlas1 Inst MElem PElem MBlas2 PMvec MBase PBase Properties_Base MGemm PGemm PMatcpy PMult
  SpecPivot MPivot PPivot MSort PSort PBlas2 PFrame.
Local Open Scope Z_scope.
Local Open Scope prog_scope.

(* element (i, j) of A or of its transpose, and the sizes of that matrix *)
Definition opelt {T} (m : Z -> T) (A : view) (t : bool) (i j : Z) : T := if t then elt m A j i else elt m A i j.
Definition oprows (A : view) (t : bool) : Z := if t then cols A else rows A.
Definition opcols (A : view) (t : bool) : Z := if t then rows A else cols A.

(* the operand is used transposed *)
Definition trA (flags : Z) : bool := has flags ARMAS_TRANSA || has flags ARMAS_CTRANSA.
Definition trB (flags : Z) : bool := has flags ARMAS_TRANSB || has flags ARMAS_CTRANSB.
(* flags with one meaning: not both of TRANSA and CTRANSA, not both of TRANSB and CTRANSB *)
Definition one_op (flags : Z) : Prop :=
  has flags ARMAS_TRANSA && has flags ARMAS_CTRANSA = false /\ has flags ARMAS_TRANSB && has flags ARMAS_CTRANSB = false.

Definition no_abs (flags : Z) : Prop := has flags ARMAS_ABSA = false /\ has flags ARMAS_ABSB = false.

(* the element addresses of the scratch buffer, p bytes per element *)
Definition inbuf (cb : cbuf) (p a : Z) : Prop := c_data cb <= a * p /\ (a + 1) * p <= c_data cb + c_len cb.

(* an aligned buffer of more than 1024 bytes, none of it part of the operands, and block sizes
   computed from the configuration (mb, nb, kb) that are usable *)
Definition buf_ok (L : Z -> bool) (cb : cbuf) (mb nb kb p : Z) (C A B : view) : Prop :=
  0 <= c_data cb /\ c_data cb mod 64 = 0 /\ 1024 < c_len cb /\ 0 <= c_l1mem cb /\
  0 < mb /\ 0 < nb /\ 0 < kb /\ 0 < p /\ (64 / p) * p = 64 /\
  (forall a, inbuf cb p a -> L a = true /\ ~ cell C a /\ ~ cell A a /\ ~ cell B a) /\
  let ch := armas_cache_setup2 cb mb nb kb p in 0 < MB ch /\ 0 < NB ch /\ 64 / p <= KB ch.

Lemma div_in : forall a p x, 0 < p -> a mod p = 0 -> (a / p + x) * p = a + x * p.
Proof. intros a p x Hp H. pose proof (Z_div_mod_eq_full a p). nia. Qed.

Lemma mod_div64 : forall a p, 0 < p -> (64 / p) * p = 64 -> a mod 64 = 0 -> a mod p = 0.
Proof.
  intros a p Hp H64 Ha. pose proof (Z_div_mod_eq_full a 64) as E. rewrite Ha, Z.add_0_r in E.
  replace a with ((64 / p * (a / 64)) * p); [apply Z.mod_mul; lia|].
  rewrite E at 2. rewrite <- H64 at 3. ring.
Qed.

Lemma has_or : forall f a b, has f (Z.lor a b) = has f a || has f b.
Proof.
  intros f a b. unfold has. rewrite land_or. set (x := Z.land f a). set (y := Z.land f b).
  destruct (x =? 0) eqn:E1, (y =? 0) eqn:E2; cbn [negb orb].
  - replace x with 0 by lia. replace y with 0 by lia. reflexivity.
  - replace x with 0 by lia. rewrite Z.lor_0_l, E2. reflexivity.
  - replace y with 0 by lia. rewrite Z.lor_0_r, E1. reflexivity.
  - destruct (Z.lor x y =? 0) eqn:E; [|reflexivity]. apply Z.eqb_eq, Z.lor_eq_0_iff in E. lia.
Qed.

Lemma transA_has : forall flags, has flags transA = trA flags.
Proof. intros. apply has_or. Qed.
Lemma transB_has : forall flags, has flags transB = trB flags.
Proof. intros. apply has_or. Qed.
Lemma abs_has : forall flags, has flags absflags = has flags ARMAS_ABSA || has flags ARMAS_ABSB.
Proof. intros. apply has_or. Qed.

(* the size check of the code, for flags with one meaning *)
Lemma gemm_ok_eq : forall C A B flags, one_op flags ->
  gemm_ok C A B flags = (rows C =? oprows A (trA flags)) && (cols C =? opcols B (trB flags)) &&
                        (opcols A (trA flags) =? oprows B (trB flags)).
Proof.
  intros C A B flags (H1 & H2). unfold gemm_ok, trA, trB, oprows, opcols.
  unfold transA, transB. rewrite !land_or. revert H1 H2. cbv zeta.
  change ARMAS_TRANSA with (2 ^ 7). change ARMAS_TRANSB with (2 ^ 8).
  change ARMAS_CTRANSA with (2 ^ 9). change ARMAS_CTRANSB with (2 ^ 10).
  rewrite !land_bit, !has_bit by lia.
  destruct (Z.testbit flags 7), (Z.testbit flags 8), (Z.testbit flags 9), (Z.testbit flags 10); cbn -[Z.eqb]; intros X Y;
    try discriminate; cbn; reflexivity.
Qed.

Section G.
  Context {T : Type} (K : num T).
  Local Notation "x +' y" := (add K x y) (at level 50, left associativity).
  Local Notation "x *' y" := (mul K x y) (at level 40, left associativity).
  Hypothesis HR : is_ring K.
  Hypothesis HE : eqb_ok K.

  (* the two blocks of a usable buffer *)
  Lemma buf_facts : forall L cb mb nb kb p C A B, buf_ok L cb mb nb kb p C A B ->
    let ch := elem_cache (armas_cache_setup2 cb mb nb kb p) p in
    0 < rb ch /\ blocks_ok L ch /\
    (forall a, cell (mkview (Acpy ch) (ab_step ch) (KB ch) (MB ch)) a -> inbuf cb p a) /\
    (forall a, cell (mkview (Bcpy ch) (ab_step ch) (KB ch) (NB ch)) a -> inbuf cb p a).
  Proof.
    intros L cb mb nb kb p C A B HB.
    destruct HB as (B1 & B2 & B3 & B4 & B5 & B6 & B7 & B8 & B9 & B10 & B11).
    set (ch := armas_cache_setup2 cb mb nb kb p) in *. cbv zeta in B11. destruct B11 as (M1 & N1 & K1).
    pose proof (C30_setup2_partial cb mb nb kb p B1 B2 B3 B5 B6 B7 B8 B9 K1) as G. fold ch in G.
    unfold good_blocks2, inside, apart, blk in G. cbn [fst snd] in G.
    destruct G as ((G1 & G2) & (G3 & G4) & G5 & G6 & G7 & G8 & G9).
    assert (C0 : 0 < 64 / p) by nia.
    assert (KB0 : 0 < KB ch) by lia. assert (st0 : 0 < ab_step ch) by lia.
    assert (RB : 0 < rb ch).
    { unfold ch, armas_cache_setup2 in *. destruct (split2_sizes (c_len cb) mb nb kb p) as [[mn nn] kn]. cbn [MB rb] in *.
      destruct (c_l1mem cb >? 0) eqn:El; [|lia]. set (r := and_not3 (c_l1mem cb / (kn * p))).
      assert (0 <= r).
      { unfold r. cbn [KB] in KB0. pose proof (and_not3_spec (c_l1mem cb / (kn * p)) ltac:(apply Z.div_pos; nia)) as X. lia. }
      destruct (r =? 0) eqn:Er; [destruct (4 >? mn) eqn:Em|destruct (r >? mn) eqn:Em]; lia. }
    pose proof (mod_div64 _ p B8 B9 G7) as A64. pose proof (mod_div64 _ p B8 B9 G8) as B64.
    set (Av := mkview (Acpy ch / p) (ab_step ch) (KB ch) (MB ch)).
    set (Bv := mkview (Bcpy ch / p) (ab_step ch) (KB ch) (NB ch)).
    assert (IA : forall a, cell Av a -> inbuf cb p a /\ exists x, 0 <= x < MB ch * ab_step ch /\ a * p = Acpy ch + x * p).
    { intros a (i & j & (Hi & Hj) & E). cbn in Hi, Hj, E. subst a.
      set (x := j * ab_step ch + i). replace (Acpy ch / p + j * ab_step ch + i) with (Acpy ch / p + x) by (unfold x; lia).
      assert (Hx : 0 <= x < MB ch * ab_step ch) by (unfold x; nia).
      pose proof (div_in (Acpy ch) p x B8 A64). pose proof (div_in (Acpy ch) p (x + 1) B8 A64).
      split; [|exists x; split; auto]. unfold inbuf. replace (Acpy ch / p + x + 1) with (Acpy ch / p + (x + 1)) by lia.
      split; nia. }
    assert (IB : forall a, cell Bv a -> inbuf cb p a /\ exists x, 0 <= x < NB ch * ab_step ch /\ a * p = Bcpy ch + x * p).
    { intros a (i & j & (Hi & Hj) & E). cbn in Hi, Hj, E. subst a.
      set (x := j * ab_step ch + i). replace (Bcpy ch / p + j * ab_step ch + i) with (Bcpy ch / p + x) by (unfold x; lia).
      assert (Hx : 0 <= x < NB ch * ab_step ch) by (unfold x; nia).
      pose proof (div_in (Bcpy ch) p x B8 B64). pose proof (div_in (Bcpy ch) p (x + 1) B8 B64).
      split; [|exists x; split; auto]. unfold inbuf. replace (Bcpy ch / p + x + 1) with (Bcpy ch / p + (x + 1)) by lia.
      split; nia. }
    cbv zeta. unfold elem_cache. cbn [Acpy Bcpy MB NB KB ab_step rb]. fold Av. fold Bv.
    split; auto. split; [|split; intros a Ha; [apply IA|apply IB]; auto].
    unfold blocks_ok. cbn [Acpy Bcpy MB NB KB ab_step]. fold Av. fold Bv. repeat split; auto.
    + intros a Ha. destruct (IA a Ha) as (X & _). apply B10 in X. tauto.
    + intros a Ha. destruct (IB a Ha) as (X & _). apply B10 in X. tauto.
    + intros a Ha Hb. destruct (IA a Ha) as (_ & x & Hx & Ex). destruct (IB a Hb) as (_ & y & Hy & Ey). nia.
  Qed.

  Lemma kernel_run : forall L (m : Z -> T) cb mb nb kb p beta C alpha A B flags (Q : unit -> (Z -> T) -> Prop),
    wf C -> wf A -> wf B -> allocated L C -> allocated L A -> allocated L B ->
    disjoint C A -> disjoint C B ->
    rows C = oprows A (trA flags) -> cols C = opcols B (trB flags) -> opcols A (trA flags) = oprows B (trB flags) ->
    buf_ok L cb mb nb kb p C A B ->
    (forall m', (forall i j, pos C i j -> elt m' C i j = elt m C i j *' beta +'
         vsum K (opcols A (trA flags)) (fun k =>
            absf K flags (opelt m A (trA flags) i k) *' absf K flags (opelt m B (trB flags) k j)) *' alpha) ->
       (forall a, ~ cell C a -> ~ inbuf cb p a -> m' a = m a) -> Q tt m') ->
    wp (armas_mult_kernel K beta C alpha A B flags (elem_cache (armas_cache_setup2 cb mb nb kb p) p)) L m Q.
  Proof.
    intros L m cb mb nb kb p beta C alpha A B flags Q WC WA WB LC LA LB DA DB E1 E2 E3 HB HQ.
    destruct (buf_facts L cb mb nb kb p C A B HB) as (RB & OK & IA & IB).
    destruct HB as (B1 & B2 & B3 & B4 & B5 & B6 & B7 & B8 & B9 & B10 & B11). clear B11.
    set (ch := elem_cache (armas_cache_setup2 cb mb nb kb p) p) in *. clearbody ch.
    apply (kernel_wp K HR L C A B alpha flags (opcols A (trA flags)) ch); auto.
    - split; auto.
    - split; auto.
    - split; auto.
    - intros a Ha Hb. apply IA, B10 in Ha. tauto.
    - intros a Ha Hb. apply IB, B10 in Ha. tauto.
    - intros a Ha Hb. apply IA, B10 in Ha. tauto.
    - intros a Ha Hb. apply IB, B10 in Ha. tauto.
    - intros a Ha Hb. apply IA, B10 in Ha. tauto.
    - intros a Ha Hb. apply IB, B10 in Ha. tauto.
    - unfold shapeA, oprows, opcols in *. rewrite transA_has. destruct (trA flags); lia.
    - unfold shapeB, oprows, opcols in *. rewrite transB_has. destruct (trB flags); lia.
    - intros m' V O. apply HQ.
      + intros i j Hp. rewrite V by auto. unfold opdot, opA, opB, opelt. rewrite transA_has, transB_has. reflexivity.
      + intros a Ha Hb. apply O; auto.
  Qed.

  Lemma mult_run : forall L (m : Z -> T) cb mb nb kb p beta C alpha A B flags,
    wf C -> wf A -> wf B -> allocated L C -> allocated L A -> allocated L B ->
    disjoint C A -> disjoint C B -> one_op flags ->
    rows C = oprows A (trA flags) -> cols C = opcols B (trB flags) -> opcols A (trA flags) = oprows B (trB flags) ->
    0 < rows C -> 0 < cols C -> 0 < opcols A (trA flags) ->
    buf_ok L cb mb nb kb p C A B ->
    exists m', armas_mult K (Some cb) mb nb kb p beta C alpha A B flags L m = Some (0, m') /\
      (forall i j, pos C i j -> elt m' C i j = elt m C i j *' beta +'
         vsum K (opcols A (trA flags)) (fun k =>
            absf K flags (opelt m A (trA flags) i k) *' absf K flags (opelt m B (trB flags) k j)) *' alpha) /\
      (forall a, ~ cell C a -> ~ inbuf cb p a -> m' a = m a).
  Proof.
    intros L m cb mb nb kb p beta C alpha A B flags WC WA WB LC LA LB DA DB H1 E1 E2 E3 P1 P2 P3 HB.
    assert (S1 : armas_size A <> 0 /\ armas_size B <> 0 /\ armas_size C <> 0).
    { unfold armas_size. revert E1 E2 E3 P1 P2 P3. unfold oprows, opcols. clear.
      destruct (trA flags), (trB flags); intros; nia. }
    assert (W : wp (armas_mult K (Some cb) mb nb kb p beta C alpha A B flags) L m (fun r m' => r = 0 /\
      (forall i j, pos C i j -> elt m' C i j = elt m C i j *' beta +'
         vsum K (opcols A (trA flags)) (fun k =>
            absf K flags (opelt m A (trA flags) i k) *' absf K flags (opelt m B (trB flags) k j)) *' alpha) /\
      (forall a, ~ cell C a -> ~ inbuf cb p a -> m' a = m a))).
    { unfold armas_mult. rewrite gemm_ok_eq by auto. rewrite <- E1, <- E2, <- E3, !Z.eqb_refl.
      replace ((armas_size A =? 0) || (armas_size B =? 0) || (armas_size C =? 0)) with false by lia. cbn [andb negb].
      wbind. apply kernel_run; auto. intros m' V O. apply wp_ret. auto. }
    destruct W as (r & m' & E & -> & V & O). exists m'. auto.
  Qed.
End G.

(* C = beta*C + alpha*op(A)*op(B) for every matrix size, every one of the transpose flags and
   every configuration with usable blocks; only C and the scratch buffer are written.
   Missing: configurations with empty or short blocks (C24_empty_block_refuted and
   C30_setup2_refuted), ABSA or ABSB alone (C24_abs_refuted), TRANSA together with CTRANSA
   (C24_ctrans_refuted), empty operands (C24_empty_refuted). *)
Theorem C24_mult_partial : forall T (K : num T), is_ring K -> eqb_ok K ->
  forall L (m : Z -> T) cb mb nb kb p beta C alpha A B flags,
    wf C -> wf A -> wf B -> allocated L C -> allocated L A -> allocated L B ->
    disjoint C A -> disjoint C B -> one_op flags -> no_abs flags ->
    rows C = oprows A (trA flags) -> cols C = opcols B (trB flags) -> opcols A (trA flags) = oprows B (trB flags) ->
    0 < rows C -> 0 < cols C -> 0 < opcols A (trA flags) ->
    buf_ok L cb mb nb kb p C A B ->
    exists m', armas_mult K (Some cb) mb nb kb p beta C alpha A B flags L m = Some (0, m') /\
      (forall i j, pos C i j -> elt m' C i j = add K (mul K beta (elt m C i j))
         (mul K alpha (vsum K (opcols A (trA flags)) (fun k =>
            mul K (opelt m A (trA flags) i k) (opelt m B (trB flags) k j))))) /\
      (forall a, ~ cell C a -> ~ inbuf cb p a -> m' a = m a).
Proof.
  intros T K HR HE L m cb mb nb kb p beta C alpha A B flags WC WA WB LC LA LB DA DB H1 (HA1 & HA2) E1 E2 E3 P1 P2 P3 HB.
  destruct (mult_run K HR HE L m cb mb nb kb p beta C alpha A B flags) as (m' & E & V & O); auto.
  exists m'. split; [exact E|]. split; [|exact O]. intros i j Hp. rewrite V by auto.
  unfold absf. rewrite abs_has, HA1, HA2. cbn [orb].
  rewrite (Rmul_comm HR (elt m C i j)), (Rmul_comm HR _ alpha). reflexivity.
Qed.
Print Assumptions C24_mult_partial.

(* with both of ABSA and ABSB the elements are replaced by their absolute values *)
Theorem C24_mult_abs_partial : forall T (K : num T), is_ring K -> eqb_ok K ->
  forall L (m : Z -> T) cb mb nb kb p beta C alpha A B flags,
    wf C -> wf A -> wf B -> allocated L C -> allocated L A -> allocated L B ->
    disjoint C A -> disjoint C B -> one_op flags -> has flags ARMAS_ABSA = true -> has flags ARMAS_ABSB = true ->
    rows C = oprows A (trA flags) -> cols C = opcols B (trB flags) -> opcols A (trA flags) = oprows B (trB flags) ->
    0 < rows C -> 0 < cols C -> 0 < opcols A (trA flags) ->
    buf_ok L cb mb nb kb p C A B ->
    exists m', armas_mult K (Some cb) mb nb kb p beta C alpha A B flags L m = Some (0, m') /\
      (forall i j, pos C i j -> elt m' C i j = add K (mul K beta (elt m C i j))
         (mul K alpha (vsum K (opcols A (trA flags)) (fun k =>
            mul K (abs K (opelt m A (trA flags) i k)) (abs K (opelt m B (trB flags) k j)))))) /\
      (forall a, ~ cell C a -> ~ inbuf cb p a -> m' a = m a).
Proof.
  intros T K HR HE L m cb mb nb kb p beta C alpha A B flags WC WA WB LC LA LB DA DB H1 HA1 HA2 E1 E2 E3 P1 P2 P3 HB.
  destruct (mult_run K HR HE L m cb mb nb kb p beta C alpha A B flags) as (m' & E & V & O); auto.
  exists m'. split; [exact E|]. split; [|exact O]. intros i j Hp. rewrite V by auto.
  unfold absf. rewrite abs_has, HA1. cbn [orb].
  rewrite (Rmul_comm HR (elt m C i j)), (Rmul_comm HR _ alpha). reflexivity.
Qed.
Print Assumptions C24_mult_abs_partial.

(* wrong sizes and a missing scratch buffer are reported and nothing is written *)
Theorem C24_mult_errors : forall T (K : num T) L (m : Z -> T) cb mb nb kb p beta C alpha A B flags,
  armas_size A <> 0 -> armas_size B <> 0 -> armas_size C <> 0 -> one_op flags ->
  (~ (rows C = oprows A (trA flags) /\ cols C = opcols B (trB flags) /\ opcols A (trA flags) = oprows B (trB flags)) ->
     armas_mult K cb mb nb kb p beta C alpha A B flags L m = Some (- ARMAS_ESIZE, m)) /\
  (rows C = oprows A (trA flags) /\ cols C = opcols B (trB flags) /\ opcols A (trA flags) = oprows B (trB flags) ->
     armas_mult K None mb nb kb p beta C alpha A B flags L m = Some (- ARMAS_EMEMORY, m)).
Proof.
  intros T K L m cb mb nb kb p beta C alpha A B flags SA SB SC H1. unfold armas_mult. rewrite gemm_ok_eq by auto.
  replace ((armas_size A =? 0) || (armas_size B =? 0) || (armas_size C =? 0)) with false by lia.
  split; intros H.
  - replace ((rows C =? oprows A (trA flags)) && (cols C =? opcols B (trB flags)) &&
             (opcols A (trA flags) =? oprows B (trB flags))) with false by lia. reflexivity.
  - destruct H as (-> & -> & ->). rewrite !Z.eqb_refl. reflexivity.
Qed.
Print Assumptions C24_mult_errors.

(* the default configuration 64, 64, 160 has usable blocks for 4- and 8-byte elements with every
   per-thread buffer (at least 4096-64 bytes, C30_thread_global) *)
Theorem C24_default_config : forall cb p, 4032 <= c_len cb -> p = 4 \/ p = 8 ->
  let ch := armas_cache_setup2 cb 64 64 160 p in 0 < MB ch /\ 0 < NB ch /\ 64 / p <= KB ch.
Proof.
  intros cb p Hl Hp. unfold armas_cache_setup2, split2_sizes.
  replace (c_len cb <=? CACHEMIN) with false by (unfold CACHEMIN; lia).
  set (S := c_len cb / p). set (k0 := Z.sqrt (160 * S / (64 + 64))).
  assert (HS : 504 <= S) by (unfold S; destruct Hp as [-> | ->]; apply Z.div_le_lower_bound; lia).
  assert (HS4 : p = 4 -> 1008 <= S) by (unfold S; intros ->; apply Z.div_le_lower_bound; lia).
  assert (Hk : 25 <= k0).
  { unfold k0. change 25 with (Z.sqrt 625). apply Z.sqrt_le_mono. apply Z.div_le_lower_bound; lia. }
  assert (Hk4 : p = 4 -> 35 <= k0).
  { unfold k0. intros E. change 35 with (Z.sqrt 1225). apply Z.sqrt_le_mono. apply Z.div_le_lower_bound; [lia|]. specialize (HS4 E). lia. }
  cbv zeta. cbn [MB NB KB].
  set (k := if k0 >? CACHELINE / p then k0 - k0 mod (CACHELINE / p) else k0).
  assert (K2 : 24 <= k).
  { unfold k, CACHELINE. destruct Hp as [-> | ->].
    - change (64 / 4) with 16. specialize (Hk4 eq_refl). destruct (k0 >? 16) eqn:E; [|lia].
      pose proof (Z.mod_pos_bound k0 16). pose proof (Z_div_mod_eq_full k0 16). assert (2 <= k0 / 16) by (apply Z.div_le_lower_bound; lia). lia.
    - change (64 / 8) with 8. destruct (k0 >? 8) eqn:E; [|lia].
      pose proof (Z.mod_pos_bound k0 8). pose proof (Z_div_mod_eq_full k0 8). assert (3 <= k0 / 8) by (apply Z.div_le_lower_bound; lia). lia. }
  assert (N2 : 9 <= k * 64 / 160) by (apply Z.div_le_lower_bound; lia).
  assert (M2 : 9 <= k * 64 / 160 * 64 / 64) by (rewrite Z.div_mul; lia).
  pose proof (and_not3_spec (k * 64 / 160) ltac:(lia)). pose proof (and_not3_spec (k * 64 / 160 * 64 / 64) ltac:(lia)).
  split; [|split].
  - unfold and_not3 in *. pose proof (Z.mod_pos_bound (k * 64 / 160 * 64 / 64) 4). lia.
  - unfold and_not3 in *. pose proof (Z.mod_pos_bound (k * 64 / 160) 4). lia.
  - destruct Hp as [-> | ->]; [change (64 / 4) with 16|change (64 / 8) with 8]; lia.
Qed.
Print Assumptions C24_default_config.

(* ---- where the claim fails ---- *)

Definition outcome {T A} (c : M T A) (L : Z -> bool) (m : Z -> T) (P : A -> (Z -> T) -> Prop) : Prop :=
  match c L m with Some (a, m') => P a m' | None => False end.

(* a per-thread buffer of 4032 bytes at element address 1024 *)
Definition ge_cb : cbuf := mkcbuf 8192 4032 4096 1024.

(* operands at 100.., 200.., 300.. *)
Lemma ge_ok : forall rc cc sc ra ca sa rb cb sb, 0 <= rc <= sc -> 0 <= ra <= sa -> 0 <= rb <= sb ->
  0 <= cc -> 0 <= ca -> 0 <= cb -> cc * sc <= 100 -> ca * sa <= 100 -> cb * sb <= 700 ->
  let C := mkview 100 sc rc cc in let A := mkview 200 sa ra ca in let B := mkview 300 sb rb cb in
  wf C /\ wf A /\ wf B /\ allocated cp_L C /\ allocated cp_L A /\ allocated cp_L B /\ disjoint C A /\ disjoint C B /\
  (forall a, inbuf ge_cb 8 a -> cp_L a = true /\ ~ cell C a /\ ~ cell A a /\ ~ cell B a).
Proof.
  intros rc cc sc ra ca sa rb cb sb H1 H2 H3 H4 H5 H6 H7 H8 H9 C A B. unfold C, A, B.
  destruct (cp_ok 100 sc rc cc 200 sa ra ca) as (X1 & X2 & X3 & X4 & X5); try lia.
  destruct (cp_ok 100 sc rc cc 300 sb rb cb) as (Y1 & Y2 & Y3 & Y4 & Y5); try lia.
  repeat (split; [assumption|]). intros a (Ha & Hb). cbn in Ha, Hb.
  assert (N : forall e s r c, 0 <= r <= s -> 0 <= c -> e + c * s <= 1000 -> ~ cell (mkview e s r c) a).
  { intros e s r c Hr Hc He (i & j & (Hi & Hj) & ->). cbn in *. nia. }
  split; [|split; [|split]]; try (apply N; lia). unfold cp_L. lia.
Qed.

(* ABSA alone, documented as |A|*B, takes the absolute values of B too:
   C = |[1]| * [-1] is computed as 1 *)
Theorem C24_abs_refuted : exists C A B cb mb nb kb p L m,
  wf C /\ wf A /\ wf B /\ allocated L C /\ allocated L A /\ allocated L B /\ disjoint C A /\ disjoint C B /\
  rows C = rows A /\ cols C = cols B /\ cols A = rows B /\ 0 < rows C /\ 0 < cols C /\ 0 < cols A /\
  buf_ok L cb mb nb kb p C A B /\
  exists m', armas_mult Znum (Some cb) mb nb kb p 0 C 1 A B ARMAS_ABSA L m = Some (0, m') /\
    ~ (forall i j, pos C i j -> elt m' C i j =
         0 * elt m C i j + 1 * vsum Znum (cols A) (fun k => Z.abs (elt m A i k) * elt m B k j)).
Proof.
  exists (mkview 100 1 1 1), (mkview 200 1 1 1), (mkview 300 1 1 1), ge_cb, 64, 64, 160, 8, cp_L,
    (fun a => if a =? 300 then -1 else 1).
  destruct (ge_ok 1 1 1 1 1 1 1 1 1) as (X1 & X2 & X3 & X4 & X5 & X6 & X7 & X8 & X9); try lia.
  assert (BO : buf_ok cp_L ge_cb 64 64 160 8 (mkview 100 1 1 1) (mkview 200 1 1 1) (mkview 300 1 1 1)).
  { unfold buf_ok. repeat (split; [first [exact X9|reflexivity|cbn; lia]|]). vm_compute. auto using Z.le_refl. repeat split; discriminate. }
  repeat (split; [first [assumption|reflexivity|cbn; lia]|]).
  assert (ONE : one_op ARMAS_ABSA) by (split; reflexivity).
  pose proof (mult_run Znum Z_ring Z_eqb cp_L (fun a => if a =? 300 then -1 else 1) ge_cb 64 64 160 8 0
    (mkview 100 1 1 1) 1 (mkview 200 1 1 1) (mkview 300 1 1 1) ARMAS_ABSA X1 X2 X3 X4 X5 X6 X7 X8 ONE
    eq_refl eq_refl eq_refl eq_refl eq_refl eq_refl BO) as (m' & E & V & _).
  exists m'. split; [exact E|]. intros H. specialize (H 0 0 ltac:(unfold pos; cbn; lia)).
  rewrite V in H by (unfold pos; cbn; lia). vm_compute in H. discriminate.
Qed.
Print Assumptions C24_abs_refuted.

(* TRANSA together with CTRANSA: the sizes are checked as for no transpose, the kernel
   transposes, and reads behind the end of A *)
Theorem C24_ctrans_refuted : exists C A B cb mb nb kb p L m,
  wf C /\ wf A /\ wf B /\ allocated L C /\ allocated L A /\ allocated L B /\ disjoint C A /\ disjoint C B /\
  rows C = rows A /\ cols C = cols B /\ cols A = rows B /\
  buf_ok L cb mb nb kb p C A B /\
  gemm_ok C A B (ARMAS_TRANSA + ARMAS_CTRANSA) = true /\
  armas_mult Znum (Some cb) mb nb kb p 0 C 1 A B (ARMAS_TRANSA + ARMAS_CTRANSA) L m = None.
Proof.
  pose (L a := cp_L a && negb ((204 <=? a) && (a <? 300))).
  exists (mkview 100 4 4 1), (mkview 200 4 4 1), (mkview 300 1 1 1), ge_cb, 64, 64, 160, 8, L, (fun a => a).
  destruct (ge_ok 4 1 4 4 1 4 1 1 1) as (X1 & X2 & X3 & X4 & X5 & X6 & X7 & X8 & X9); try lia.
  assert (AL : forall e s r c, allocated cp_L (mkview e s r c) -> 0 <= r <= s -> 0 <= c ->
     e + c * s <= 204 \/ 300 <= e -> allocated L (mkview e s r c)).
  { intros e s r c H Hr Hc He a Ha. unfold L. rewrite (H a Ha). destruct Ha as (i & j & (Hi & Hj) & ->). cbn in *.
    assert (0 <= j * s /\ j * s + s <= c * s) by nia. lia. }
  split; [exact X1|]. split; [exact X2|]. split; [exact X3|].
  split; [apply AL; auto; lia|]. split; [apply AL; auto; lia|]. split; [apply AL; auto; lia|].
  split; [exact X7|]. split; [exact X8|]. repeat (split; [reflexivity|]). split; [|split; [reflexivity|vm_compute; reflexivity]].
  unfold buf_ok. repeat (split; [first [reflexivity|cbn; lia]|]). split.
  - intros a Ha. destruct (X9 a Ha) as (Y1 & Y2). split; auto. unfold L. rewrite Y1. destruct Ha as (Ha & _). cbn in Ha. lia.
  - vm_compute. repeat split; auto; discriminate.
Qed.
Print Assumptions C24_ctrans_refuted.

(* an empty inner dimension: the product is zero, but C is not multiplied by beta *)
Theorem C24_empty_refuted : exists C A B L m,
  wf C /\ wf A /\ wf B /\ allocated L C /\ allocated L A /\ allocated L B /\ disjoint C A /\ disjoint C B /\
  rows C = rows A /\ cols C = cols B /\ cols A = rows B /\
  forall cb mb nb kb p, exists m', armas_mult Znum cb mb nb kb p 0 C 1 A B 0 L m = Some (0, m') /\
    ~ (forall i j, pos C i j -> elt m' C i j =
         0 * elt m C i j + 1 * vsum Znum (cols A) (fun k => elt m A i k * elt m B k j)).
Proof.
  exists (mkview 100 2 2 3), (mkview 200 2 2 0), (mkview 300 1 0 3), cp_L, (fun a => a).
  destruct (ge_ok 2 3 2 2 0 2 0 3 1) as (X1 & X2 & X3 & X4 & X5 & X6 & X7 & X8 & X9); try lia.
  repeat (split; [first [assumption|reflexivity]|]). intros. exists (fun a => a). split; [reflexivity|].
  intros H. specialize (H 0 0 ltac:(unfold pos; cbn; lia)). vm_compute in H. discriminate.
Qed.
Print Assumptions C24_empty_refuted.

(* a configuration that gives blocks of 0 columns: the product never ends, whatever the
   (non-empty) operands; 1, 1, 160 is one (C24_empty_block_reached) *)
Theorem C24_empty_block_refuted : forall T (K : num T) L (m : Z -> T) cb mb nb kb p beta C alpha A B flags,
  NB (armas_cache_setup2 cb mb nb kb p) = 0 -> eqb K alpha (zero K) = false ->
  0 < cols C -> armas_size A <> 0 -> armas_size B <> 0 -> armas_size C <> 0 -> gemm_ok C A B flags = true ->
  armas_mult K (Some cb) mb nb kb p beta C alpha A B flags L m = None.
Proof.
  intros T K L m cb mb nb kb p beta C alpha A B flags HN Ha Hc SA SB SC HG. unfold armas_mult.
  replace ((armas_size A =? 0) || (armas_size B =? 0) || (armas_size C =? 0)) with false by lia.
  rewrite HG. cbn [negb]. rewrite run_bind at 1. unfold armas_mult_kernel. rewrite Ha. unfold for_step, elem_cache at 1. cbn [NB].
  rewrite HN. replace (0 <? cols C) with true by lia. reflexivity.
Qed.
Print Assumptions C24_empty_block_refuted.

Theorem C24_empty_block_reached_refuted : exists cb mb nb kb p,
  c_data cb mod 64 = 0 /\ 1024 < c_len cb /\ 0 < mb /\ 0 < nb /\ 0 < kb /\ p = 8 /\
  NB (armas_cache_setup2 cb mb nb kb p) = 0.
Proof. exists ge_cb, 1, 1, 160, 8. repeat (split; [reflexivity || (cbn; lia)|]). vm_compute. reflexivity. Qed.
Print Assumptions C24_empty_block_reached_refuted.

(* 5 x 3 times the transpose of 6 x 3, in blocks of the default configuration and in blocks of
   4 columns (configuration 8, 8, 64) *)
Example C24_nonvacuous :
  let C := mkview 100 7 5 6 in let A := mkview 200 6 5 3 in let B := mkview 300 8 6 3 in
  wf C /\ wf A /\ wf B /\ allocated cp_L C /\ allocated cp_L A /\ allocated cp_L B /\ disjoint C A /\ disjoint C B /\
  one_op ARMAS_TRANSB /\ no_abs ARMAS_TRANSB /\
  rows C = oprows A (trA ARMAS_TRANSB) /\ cols C = opcols B (trB ARMAS_TRANSB) /\
  opcols A (trA ARMAS_TRANSB) = oprows B (trB ARMAS_TRANSB) /\
  buf_ok cp_L ge_cb 64 64 160 8 C A B /\ buf_ok cp_L ge_cb 8 8 64 8 C A B /\
  NB (armas_cache_setup2 ge_cb 8 8 64 8) = 4 /\
  outcome (armas_mult Znum (Some ge_cb) 8 8 64 8 2 C 3 A B ARMAS_TRANSB) cp_L (fun a => a mod 5)
    (fun r m' => r = 0 /\ elt m' C 4 5 = 2 * ((139) mod 5) + 3 * ((204 mod 5) * (305 mod 5) + (210 mod 5) * (313 mod 5) + (216 mod 5) * (321 mod 5))).
Proof.
  cbv zeta. destruct (ge_ok 5 6 7 5 3 6 6 3 8) as (X1 & X2 & X3 & X4 & X5 & X6 & X7 & X8 & X9); try lia.
  repeat (split; [assumption|]). split; [split; reflexivity|]. split; [split; reflexivity|].
  repeat (split; [reflexivity|]). split; [|split; [|split]].
  - unfold buf_ok. repeat (split; [first [exact X9|reflexivity|cbn; lia]|]). vm_compute. repeat split; discriminate.
  - unfold buf_ok. repeat (split; [first [exact X9|reflexivity|cbn; lia]|]). vm_compute. repeat split; discriminate.
  - vm_compute. reflexivity.
  - vm_compute. split; reflexivity.
Qed.
