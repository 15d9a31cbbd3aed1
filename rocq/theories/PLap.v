(* PLap.v: rules for the operations the LAPACK style routines call on blocks of one matrix,
   and for their loop over the diagonal. *)
From Coq Require Import ZArith Lia Bool ZifyBool Ring.
From Verif Require Import Mem MView SpecView PView PSub Hoare MFlags MBase MCopy PUpd PCopy
  MNum SpecNum MBlas1 PSum PBlas1 MElem PElem SpecPivot MPivot PPivot MBlas2 PMvec PBlas2
  PFrame SpecTrm MTrm PTrm MGemm PGemm PMatcpy PMult MTrsm PTrsm MLap
  Properties_Blas1 Properties_Blas2 Properties_Trm Properties_Gemm Properties_Trsm Properties_Pivot.
Local Open Scope Z_scope.
Local Open Scope prog_scope.

Ltac lia := nobool; zlia.

Notation subm := armas_submatrix_unsafe.

(* a usable configuration for the matrix A *)
Definition env_ok (E : lenv) (L : Z -> bool) (cb : cbuf) (A : view) : Prop :=
  0 <= e_b1 E /\ 2 <= e_b2 E /\ rows A < Z.of_nat (e_fuel E) /\ cols A < Z.of_nat (e_fuel E) /\
  e_cb E = Some cb /\ buf_ok L cb (e_mb E) (e_nb E) (e_kb E) (e_p E) A A A.

(* only A and the work buffer change *)
Definition outb {T} (cb : cbuf) (p : Z) (A : view) (m m' : Z -> T) : Prop :=
  forall a, ~ cell A a -> ~ inbuf cb p a -> m' a = m a.

Definition inA (A : view) (r c nr nc : Z) : Prop :=
  0 <= r /\ 0 <= c /\ 0 <= nr /\ 0 <= nc /\ r + nr <= rows A /\ c + nc <= cols A.

Definition inb (r c nr nc i j : Z) : Prop := r <= i < r + nr /\ c <= j < c + nc.

Lemma env_sub : forall E L cb A V, env_ok E L cb A -> (forall a, cell V a -> cell A a) ->
  rows V <= rows A -> cols V <= cols A -> env_ok E L cb V.
Proof.
  intros E L cb A V (H1 & H2 & H3 & H4 & H5 & B1 & B2 & B3 & B4 & B5 & B6 & B7 & B8 & B9 & B10 & B11) HV Hr Hc.
  repeat (split; [first [assumption|lia]|]).
  repeat (split; [assumption|]). split; [|exact B11].
  intros a Ha. destruct (B10 a Ha) as (C1 & C2 & _). assert (~ cell V a) by auto. auto.
Qed.

(* the partitions of the loop at diagonal position k *)
Definition b2at (A : view) (k : Z) : blk2 :=
  mkblk2 (subm A 0 0 k k) (subm A 0 k k (cols A - k)) (subm A k 0 (rows A - k) k) (subm A k k (rows A - k) (cols A - k)).

Definition b3at (A : view) (k n : Z) : blk3 :=
  mkblk3 (subm A 0 0 k k) (subm A 0 k k n) (subm A 0 (k + n) k (cols A - k - n))
         (subm A k 0 n k) (subm A k k n n) (subm A k (k + n) n (cols A - k - n))
         (subm A (k + n) 0 (rows A - k - n) k) (subm A (k + n) k (rows A - k - n) n)
         (subm A (k + n) (k + n) (rows A - k - n) (cols A - k - n)).

Lemma part_at : forall A, mat_partition_2x2 A 0 0 PTop = b2at A 0.
Proof. reflexivity. Qed.

Lemma repart_at : forall A k nb, 0 < nb -> 0 <= k < rows A -> k < cols A ->
  mat_repartition_2x2to3x3 (subm A 0 0 k k) A nb PBottom = b3at A k (Z.min nb (Z.min (rows A - k) (cols A - k))).
Proof.
  intros A k nb Hn Hr Hc. unfold mat_repartition_2x2to3x3.
  change (rows (subm A 0 0 k k)) with k. change (cols (subm A 0 0 k k)) with k.
  replace (if k + (if k + nb >? cols A then cols A - k else nb) >? rows A then rows A - k
           else (if k + nb >? cols A then cols A - k else nb))
    with (Z.min nb (Z.min (rows A - k) (cols A - k))).
  - reflexivity.
  - destruct (k + nb >? cols A) eqn:E1.
    + destruct (k + (cols A - k) >? rows A) eqn:E2; Lia.lia.
    + destruct (k + nb >? rows A) eqn:E2; Lia.lia.
Qed.

Lemma cont_at : forall A k n, mat_continue_3x3to2x2 (A00 (b3at A k n)) (A11 (b3at A k n)) A PBottom = b2at A (k + n).
Proof.
  intros. unfold mat_continue_3x3to2x2, b2at, b3at. cbn [A00 A11].
  change (cols (subm A k k n n)) with n. change (rows (subm A 0 0 k k)) with k. change (cols (subm A 0 0 k k)) with k.
  replace (cols A - k - n) with (cols A - (k + n)) by lia. replace (rows A - k - n) with (rows A - (k + n)) by lia.
  reflexivity.
Qed.

Section W.
  Context {T : Type}.

  (* the loop over the diagonal *)
  Lemma wp_down : forall {S} L (A : view) nb (go : view -> bool) (stop : Z) body (I : Z -> S -> (Z -> T) -> Prop)
      fuel k s m (Q : blk2 * S -> (Z -> T) -> Prop),
    0 < nb -> 0 <= k -> stop < Z.min (rows A) (cols A) ->
    (forall q, 0 <= q <= Z.min (rows A) (cols A) -> go (subm A q q (rows A - q) (cols A - q)) = true <-> q <= stop) ->
    I k s m -> k <= Z.min (rows A) (cols A) -> Z.min (rows A) (cols A) - k < Z.of_nat fuel ->
    (forall q s m, k <= q <= stop -> I q s m ->
       let n := Z.min nb (Z.min (rows A - q) (cols A - q)) in
       wp (body (b2at A q) (b3at A q n) s) L m (fun s' m' => I (q + n) s' m')) ->
    (forall q s m, k <= q -> stop < q <= Z.min (rows A) (cols A) -> I q s m -> Q (b2at A q, s) m) ->
    wp (down_loop fuel A nb go body (b2at A k) s) L m Q.
  Proof.
    intros S L A nb go stop body I fuel. induction fuel as [|fuel IH]; intros k s m Q Hnb Hk Hst Hgo HI Hkm Hf Hb HQ; cbn [down_loop].
    - exfalso. lia.
    - cbn [ABR b2at ATL]. destruct (go (subm A k k (rows A - k) (cols A - k))) eqn:E.
      + apply Hgo in E; [|lia]. rewrite repart_at by lia. wbind.
        eapply wp_conseq; [apply Hb; [lia|exact HI]|]. intros s' m' HI'. cbv zeta in HI'.
        set (n := Z.min nb (Z.min (rows A - k) (cols A - k))) in *. rewrite cont_at.
        assert (0 < n) by Lia.lia. assert (k + n <= Z.min (rows A) (cols A)) by Lia.lia. clearbody n.
        apply IH; auto; try lia.
        * intros q s0 m0 Hq Hi. apply Hb; [lia|auto].
        * intros q s0 m0 Hq1 Hq2 Hi. apply HQ; auto; lia.
      + apply wp_ret. apply HQ; auto; try lia. split; [|lia]. destruct (Z_le_gt_dec k stop) as [Hl|Hl]; [|lia].
        apply Hgo in Hl; [|lia]. rewrite Hl in E. discriminate.
  Qed.

  Lemma more_iff : forall A q, 0 <= q <= Z.min (rows A) (cols A) ->
    more (subm A q q (rows A - q) (cols A - q)) = true <-> q <= Z.min (rows A) (cols A) - 1.
  Proof. intros A q Hq. unfold more. cbn [rows cols armas_submatrix_unsafe armas_make]. rewrite andb_true_iff, !Z.gtb_lt. lia. Qed.

  Lemma more_than_iff : forall lb A q, 0 <= q <= Z.min (rows A) (cols A) ->
    more_than lb (subm A q q (rows A - q) (cols A - q)) = true <-> q <= Z.min (rows A) (cols A) - 1 - lb.
  Proof. intros lb A q Hq. unfold more_than. cbn [rows cols armas_submatrix_unsafe armas_make]. rewrite andb_true_iff, !Z.gtb_lt. lia. Qed.
End W.

Section O.
  Context {T : Type} (K : num T).
  Hypotheses (HF : is_field K) (HE : eqb_ok K).
  Let HR : is_ring K := Field_theory.F_R HF.
  Let HR' : ring_theory (zero K) (one K) (add K) (mul K) (sub K) (opp K) eq := HR.
  Add Ring KringL : HR'.
  Local Notation "a +' b" := (add K a b) (at level 50, left associativity).
  Local Notation "a -' b" := (sub K a b) (at level 50, left associativity).
  Local Notation "a *' b" := (mul K a b) (at level 40, left associativity).

  (* the triangular solve with alpha = 1, on any of its paths; a zero on the diagonal only costs
     the equations *)
  Lemma solve_any_wp : forall (E : lenv) L cb B A flags m (Q : Z -> (Z -> T) -> Prop),
    env_ok E L cb B -> buf_ok L cb (e_mb E) (e_nb E) (e_kb E) (e_p E) B A A ->
    mok L B -> mok L A -> disjoint B A ->
    has flags ARMAS_LOWER = negb (has flags ARMAS_UPPER) -> has flags ARMAS_LEFT && has flags ARMAS_RIGHT = false ->
    plain_flags flags -> rows A = cols A -> trm_dim (has flags ARMAS_RIGHT) B = cols A ->
    (forall m', (has flags ARMAS_UNIT = true \/ (forall i, 0 <= i < cols A -> elt m A i i <> zero K) ->
         solves_trm K (has flags ARMAS_RIGHT) (has flags ARMAS_UPPER) (has flags ARMAS_UNIT) (has flags ARMAS_TRANSA) m m' (one K) A B) ->
       outb cb (e_p E) B m m' -> Q 0 m') ->
    wp (l_solve_trm K E B (one K) A flags) L m Q.
  Proof.
    intros E L cb B A flags m Q (E1 & E2 & E3 & E4 & E5 & _) HB (WB & LB) (WA & LA) D Hlo Hlr Hpl Sq En HQ.
    unfold l_solve_trm. rewrite E5. pose proof WB as (Hr & Hc & _).
    destruct (has (e_opt E) ARMAS_ONAIVE) eqn:EO.
    - destruct (trsm_run_naive T K HF HE (e_fuel E) (e_b2 E) (e_opt E) (Some cb) (e_mb E) (e_nb E) (e_kb E) (e_p E) L m B
        (one K) A flags) as (m' & R1 & R2 & R3); auto.
      + rewrite Hlo. destruct (has flags ARMAS_UPPER); reflexivity.
      + exists 0, m'. split; [exact R1|]. apply HQ.
        * replace (has flags ARMAS_TRANSA) with (has flags ARMAS_TRANSA && (has flags ARMAS_UPPER || has flags ARMAS_LOWER)); [exact R2|].
          rewrite Hlo. destruct (has flags ARMAS_UPPER), (has flags ARMAS_TRANSA); reflexivity.
        * intros a Ha _. apply R3, Ha.
    - destruct (Z.eq_dec (rows B) 0) as [Z1|Z1]; [|destruct (Z.eq_dec (cols B) 0) as [Z2|Z2]].
      1, 2: exists 0, m; unfold armas_solve_trm, armas_size; rewrite ?Z1, ?Z2, ?Z.mul_0_r; split; [reflexivity|];
        apply HQ; [intros _ i j (Hi & Hj); exfalso; lia|intros a _ _; reflexivity].
      destruct (trsm_run K HF HE (e_fuel E) (e_b2 E) (e_opt E) cb (e_mb E) (e_nb E) (e_kb E) (e_p E) L m B
        (one K) A flags) as (m' & R1 & R2 & R3); auto; try lia.
      exists 0, m'. split; [exact R1|]. apply HQ; auto.
  Qed.

  Lemma solve_wp : forall (E : lenv) L cb B A flags m (Q : Z -> (Z -> T) -> Prop),
    env_ok E L cb B -> buf_ok L cb (e_mb E) (e_nb E) (e_kb E) (e_p E) B A A ->
    mok L B -> mok L A -> disjoint B A ->
    has flags ARMAS_LOWER = negb (has flags ARMAS_UPPER) -> has flags ARMAS_LEFT && has flags ARMAS_RIGHT = false ->
    plain_flags flags -> rows A = cols A -> trm_dim (has flags ARMAS_RIGHT) B = cols A ->
    has flags ARMAS_UNIT = true \/ (forall i, 0 <= i < cols A -> elt m A i i <> zero K) ->
    (forall m', solves_trm K (has flags ARMAS_RIGHT) (has flags ARMAS_UPPER) (has flags ARMAS_UNIT) (has flags ARMAS_TRANSA) m m' (one K) A B ->
       outb cb (e_p E) B m m' -> Q 0 m') ->
    wp (l_solve_trm K E B (one K) A flags) L m Q.
  Proof.
    intros E L cb B A flags m Q EO HB OB OA D Hlo Hlr Hpl Sq En Hd HQ. apply (solve_any_wp E L cb); auto.
  Qed.

  (* sums cut at the diagonal *)
  Lemma sum_upto : forall n i f, 0 <= i < n -> (forall k, i < k < n -> f k = zero K) -> vsum K n f = vsum K i f +' f i.
  Proof.
    intros n i f Hi H. replace n with ((i + 1) + (n - (i + 1))) by lia. rewrite (vsum_split K HR) by lia.
    rewrite (vsum_zero K HR (n - (i + 1))); [|intros k Hk; apply H; lia]. rewrite vsum_S by lia. ring.
  Qed.

  Section Blk.
    Variables (E : lenv) (L : Z -> bool) (cb : cbuf) (A : view).
    Hypotheses (EO : env_ok E L cb A) (OKA : mok L A).
    Let WA : wf A := proj1 OKA.
    Let p := e_p E.
    Local Notation V := (armas_submatrix_unsafe A).
    Local Notation "m .[ i , j ]" := (elt m A i j) (at level 1, format "m .[ i ,  j ]").

    (* nothing but the block (r, c, nr, nc) of A changes *)
    Definition blk_only r c nr nc (m m' : Z -> T) : Prop :=
      (forall i j, pos A i j -> ~ inb r c nr nc i j -> m'.[i, j] = m.[i, j]) /\ outb cb p A m m'.

    Lemma not_buf : forall a, cell A a -> ~ inbuf cb p a.
    Proof. intros a Ha Hb. destruct EO as (_ & _ & _ & _ & _ & _ & _ & _ & _ & _ & _ & _ & _ & _ & B10 & _). apply B10 in Hb. tauto. Qed.

    Lemma V_elt : forall (m : Z -> T) r c nr nc i j, elt m (V r c nr nc) i j = m.[r + i, c + j].
    Proof. intros. apply subm_elt. Qed.

    Lemma V_ok : forall r c nr nc, inA A r c nr nc -> mok L (V r c nr nc).
    Proof. intros r c nr nc (H1 & H2 & H3 & H4 & H5 & H6). apply mok_sub; auto. Qed.

    Lemma V_in : forall r c nr nc a, inA A r c nr nc -> cell (V r c nr nc) a -> cell A a.
    Proof. intros r c nr nc a (H1 & H2 & H3 & H4 & H5 & H6). apply subm_in; auto. Qed.

    Lemma V_env : forall r c nr nc, inA A r c nr nc -> env_ok E L cb (V r c nr nc).
    Proof.
      intros r c nr nc H. apply (env_sub E L cb A); auto.
      - intros a. apply V_in. exact H.
      - destruct H as (H1 & H2 & H3 & H4 & H5 & H6). cbn [rows armas_submatrix_unsafe armas_make]. lia.
      - destruct H as (H1 & H2 & H3 & H4 & H5 & H6). cbn [cols armas_submatrix_unsafe armas_make]. lia.
    Qed.

    Lemma V_buf : forall C X Y, (forall a, cell C a -> cell A a) -> (forall a, cell X a -> cell A a) -> (forall a, cell Y a -> cell A a) ->
      buf_ok L cb (e_mb E) (e_nb E) (e_kb E) (e_p E) C X Y.
    Proof.
      intros C X Y HC HX HY. destruct EO as (_ & _ & _ & _ & _ & B1 & B2 & B3 & B4 & B5 & B6 & B7 & B8 & B9 & B10 & B11).
      repeat (split; [assumption|]). split; [|exact B11].
      intros a Ha. destruct (B10 a Ha) as (C1 & C2 & _).
      assert (~ cell C a) by auto. assert (~ cell X a) by auto. assert (~ cell Y a) by auto. auto.
    Qed.

    Lemma V_disj : forall r c nr nc r' c' nr' nc', inA A r c nr nc -> inA A r' c' nr' nc' ->
      r + nr <= r' \/ r' + nr' <= r \/ c + nc <= c' \/ c' + nc' <= c -> disjoint (V r c nr nc) (V r' c' nr' nc').
    Proof. intros r c nr nc r' c' nr' nc' (H1 & H2 & H3 & H4 & H5 & H6) (G1 & G2 & G3 & G4 & G5 & G6) H. apply subm_disj; auto. Qed.

    Lemma blk_frame : forall r c nr nc m m', inA A r c nr nc -> outb cb p (V r c nr nc) m m' -> blk_only r c nr nc m m'.
    Proof.
      intros r c nr nc m m' HI H. pose proof HI as (H1 & H2 & H3 & H4 & H5 & H6). split.
      - intros i j Hp Hn. apply H.
        + intros Hc. apply Hn. apply (subm_cell A r c nr nc i j) in Hc; auto.
        + apply not_buf. exists i, j. split; auto.
      - intros a Ha Hb. apply H; auto. intros Hc. apply Ha. apply (V_in r c nr nc); auto.
    Qed.

    Lemma outb_oc : forall X (m m' : Z -> T), only_changes X m m' -> outb cb p X m m'.
    Proof. intros X m m' H a Ha _. apply H, Ha. Qed.

    Lemma outb_trans : forall X (m m1 m2 : Z -> T), outb cb p X m m1 -> outb cb p X m1 m2 -> outb cb p X m m2.
    Proof. intros X m m1 m2 H1 H2 a Ha Hb. rewrite H2, H1; auto. Qed.

    Lemma outb_refl : forall X (m : Z -> T), outb cb p X m m.
    Proof. intros X m a _ _. reflexivity. Qed.

    (* C := C - X*Y *)
    Lemma mult_wp : forall r c nr nc c1 r1 kk m (Q : Z -> (Z -> T) -> Prop),
      inA A r c nr nc -> inA A r c1 nr kk -> inA A r1 c kk nc ->
      c1 + kk <= c \/ c + nc <= c1 -> r1 + kk <= r \/ r + nr <= r1 ->
      (forall m', (forall i j, inb r c nr nc i j -> m'.[i, j] = m.[i, j] -' vsum K kk (fun q => m.[i, c1 + q] *' m.[r1 + q, j])) ->
         blk_only r c nr nc m m' -> Q 0 m') ->
      wp (l_mult K E (one K) (V r c nr nc) (opp K (one K)) (V r c1 nr kk) (V r1 c kk nc) 0) L m Q.
    Proof.
      intros r c nr nc c1 r1 kk m Q I1 I2 I3 D1 D2 HQ. unfold l_mult. pose proof EO as (_ & _ & _ & _ & E5 & _). rewrite E5.
      pose proof I1 as (H1 & H2 & H3 & H4 & H5 & H6). pose proof I2 as (G1 & G2 & G3 & G4 & G5 & G6). pose proof I3 as (F1 & F2 & F3 & F4 & F5 & F6).
      destruct (Z.eq_dec nr 0) as [Z1|Z1]; [|destruct (Z.eq_dec nc 0) as [Z2|Z2]; [|destruct (Z.eq_dec kk 0) as [Z3|Z3]]].
      1, 2, 3: exists 0, m; unfold armas_mult, armas_size; cbn [rows cols armas_submatrix_unsafe armas_make];
        rewrite ?Z1, ?Z2, ?Z3, ?Z.mul_0_r, ?Z.mul_0_l, ?orb_true_r; cbn [orb Z.eqb]; (split; [reflexivity|]);
        (apply HQ; [|split; [intros; reflexivity|apply outb_refl]]); intros i j (Hi & Hj).
      1: exfalso; lia.
      1: exfalso; lia.
      { rewrite Z3, vsum_0 by lia. ring. }
      destruct (C24_mult_partial T K HR HE L m cb (e_mb E) (e_nb E) (e_kb E) (e_p E) (one K) (V r c nr nc) (opp K (one K)) (V r c1 nr kk) (V r1 c kk nc) 0)
        as (m' & R1 & R2 & R3); try apply (V_ok _ _ _ _ I1); try apply (V_ok _ _ _ _ I2); try apply (V_ok _ _ _ _ I3); try reflexivity.
      + apply V_disj; auto; lia.
      + apply V_disj; auto; lia.
      + repeat split; reflexivity.
      + split; reflexivity.
      + change (0 < nr). lia.
      + change (0 < nc). lia.
      + change (0 < kk). lia.
      + apply V_buf; intros a; apply V_in; auto.
      + exists 0, m'. split; [exact R1|]. apply HQ; [|apply blk_frame; auto].
        intros i j (Hi & Hj). specialize (R2 (i - r) (j - c)). rewrite !V_elt in R2.
        replace (r + (i - r)) with i in R2 by lia. replace (c + (j - c)) with j in R2 by lia.
        rewrite R2 by (split; cbn [rows cols armas_submatrix_unsafe armas_make]; lia).
        change (trA 0) with false. change (trB 0) with false. unfold opcols, opelt.
        change (cols (V r c1 nr kk)) with kk.
        rewrite (vsum_ext K kk _ (fun q => m.[i, c1 + q] *' m.[r1 + q, j])); [ring|].
        intros q Hq. rewrite !V_elt. repeat f_equal; lia.
    Qed.

    (* the triangular solve B := op(T)^-1 * B or B * op(T)^-1 on two blocks of A *)
    Lemma solve_any_blk_wp : forall r c nr nc r1 c1 n flags m (Q : Z -> (Z -> T) -> Prop),
      inA A r c nr nc -> inA A r1 c1 n n -> r + nr <= r1 \/ r1 + n <= r \/ c + nc <= c1 \/ c1 + n <= c ->
      has flags ARMAS_LOWER = negb (has flags ARMAS_UPPER) -> has flags ARMAS_LEFT && has flags ARMAS_RIGHT = false ->
      plain_flags flags -> (if has flags ARMAS_RIGHT then nc else nr) = n ->
      (forall m', (has flags ARMAS_UNIT = true \/ (forall i, 0 <= i < n -> m.[r1 + i, c1 + i] <> zero K) ->
           solves_trm K (has flags ARMAS_RIGHT) (has flags ARMAS_UPPER) (has flags ARMAS_UNIT) (has flags ARMAS_TRANSA) m m' (one K)
             (V r1 c1 n n) (V r c nr nc)) -> blk_only r c nr nc m m' -> Q 0 m') ->
      wp (l_solve_trm K E (V r c nr nc) (one K) (V r1 c1 n n) flags) L m Q.
    Proof.
      intros r c nr nc r1 c1 n flags m Q I1 I2 D Hlo Hlr Hpl En HQ. eapply solve_any_wp; eauto.
      - apply V_env; auto.
      - apply V_buf; intros a; apply V_in; auto.
      - apply V_ok; auto.
      - apply V_ok; auto.
      - apply V_disj; auto.
      - intros m' S O. apply HQ; [|apply blk_frame; auto]. intros Hd. apply S.
        destruct Hd as [Hd|Hd]; [left; auto|right]. intros i Hi. rewrite V_elt. apply Hd. exact Hi.
    Qed.

    Lemma solve_blk_wp : forall r c nr nc r1 c1 n flags m (Q : Z -> (Z -> T) -> Prop),
      inA A r c nr nc -> inA A r1 c1 n n -> r + nr <= r1 \/ r1 + n <= r \/ c + nc <= c1 \/ c1 + n <= c ->
      has flags ARMAS_LOWER = negb (has flags ARMAS_UPPER) -> has flags ARMAS_LEFT && has flags ARMAS_RIGHT = false ->
      plain_flags flags -> (if has flags ARMAS_RIGHT then nc else nr) = n ->
      has flags ARMAS_UNIT = true \/ (forall i, 0 <= i < n -> m.[r1 + i, c1 + i] <> zero K) ->
      (forall m', solves_trm K (has flags ARMAS_RIGHT) (has flags ARMAS_UPPER) (has flags ARMAS_UNIT) (has flags ARMAS_TRANSA) m m' (one K)
           (V r1 c1 n n) (V r c nr nc) -> blk_only r c nr nc m m' -> Q 0 m') ->
      wp (l_solve_trm K E (V r c nr nc) (one K) (V r1 c1 n n) flags) L m Q.
    Proof. intros r c nr nc r1 c1 n flags m Q I1 I2 D Hlo Hlr Hpl En Hd HQ. apply solve_any_blk_wp; auto. Qed.

    Lemma fl_LU : has (Z.lor ARMAS_LEFT (Z.lor ARMAS_LOWER ARMAS_UNIT)) ARMAS_UNIT = true. Proof. reflexivity. Qed.

    (* solve with the unit lower triangle from the left *)
    Lemma solve_left_unit_wp : forall flags r c nr nc r1 c1 m (Q : Z -> (Z -> T) -> Prop),
      flags = Z.lor ARMAS_LEFT (Z.lor ARMAS_LOWER ARMAS_UNIT) ->
      inA A r c nr nc -> inA A r1 c1 nr nr -> r + nr <= r1 \/ r1 + nr <= r \/ c + nc <= c1 \/ c1 + nr <= c ->
      (forall m', (forall i j, 0 <= i < nr -> 0 <= j < nc ->
           vsum K i (fun q => m.[r1 + i, c1 + q] *' m'.[r + q, c + j]) +' m'.[r + i, c + j] = m.[r + i, c + j]) ->
         blk_only r c nr nc m m' -> Q 0 m') ->
      wp (l_solve_trm K E (V r c nr nc) (one K) (V r1 c1 nr nr) flags) L m Q.
    Proof.
      intros flags r c nr nc r1 c1 m Q -> I1 I2 D HQ. apply solve_blk_wp; auto.
      - repeat split.
      - intros m' S O. apply HQ; auto. intros i j Hi Hj.
        assert (P : pos (V r c nr nc) i j) by (split; cbn [rows cols armas_submatrix_unsafe armas_make]; lia).
        specialize (S i j P). cbv beta iota in S. change (has (Z.lor ARMAS_LEFT (Z.lor ARMAS_LOWER ARMAS_UNIT)) ARMAS_RIGHT) with false in S.
        cbv iota in S. change (has (Z.lor ARMAS_LEFT (Z.lor ARMAS_LOWER ARMAS_UNIT)) ARMAS_UPPER) with false in S.
        change (has (Z.lor ARMAS_LEFT (Z.lor ARMAS_LOWER ARMAS_UNIT)) ARMAS_UNIT) with true in S.
        change (has (Z.lor ARMAS_LEFT (Z.lor ARMAS_LOWER ARMAS_UNIT)) ARMAS_TRANSA) with false in S.
        change (cols (V r1 c1 nr nr)) with nr in S. rewrite (sum_upto nr i) in S; [| lia |].
        2:{ intros q Hq. unfold optri, tri. replace (i =? q) with false by zlia. replace (q <? i) with false by zlia. ring. }
        rewrite !V_elt in S. unfold optri in S at 2. unfold tri in S at 1. rewrite Z.eqb_refl in S.
        rewrite (vsum_ext K i _ (fun q => m.[r1 + i, c1 + q] *' m'.[r + q, c + j])) in S.
        + transitivity (one K *' m.[r + i, c + j]); [|ring]. rewrite <- S. ring.
        + intros q Hq. rewrite V_elt. unfold optri, tri. replace (i =? q) with false by zlia. replace (q <? i) with true by zlia.
          rewrite V_elt. reflexivity.
    Qed.

    (* solve with the upper triangle from the right *)
    Lemma solve_right_upper_wp : forall flags r c nr nc r1 c1 m (Q : Z -> (Z -> T) -> Prop),
      flags = Z.lor ARMAS_RIGHT ARMAS_UPPER ->
      inA A r c nr nc -> inA A r1 c1 nc nc -> r + nr <= r1 \/ r1 + nc <= r \/ c + nc <= c1 \/ c1 + nc <= c ->
      (forall i, 0 <= i < nc -> m.[r1 + i, c1 + i] <> zero K) ->
      (forall m', (forall i j, 0 <= i < nr -> 0 <= j < nc ->
           vsum K j (fun q => m'.[r + i, c + q] *' m.[r1 + q, c1 + j]) +' m'.[r + i, c + j] *' m.[r1 + j, c1 + j] = m.[r + i, c + j]) ->
         blk_only r c nr nc m m' -> Q 0 m') ->
      wp (l_solve_trm K E (V r c nr nc) (one K) (V r1 c1 nc nc) flags) L m Q.
    Proof.
      intros flags r c nr nc r1 c1 m Q -> I1 I2 D Hd HQ. apply solve_blk_wp; auto.
      - repeat split.
      - intros m' S O. apply HQ; auto. intros i j Hi Hj.
        assert (P : pos (V r c nr nc) i j) by (split; cbn [rows cols armas_submatrix_unsafe armas_make]; lia).
        specialize (S i j P). cbv beta iota in S. change (has (Z.lor ARMAS_RIGHT ARMAS_UPPER) ARMAS_RIGHT) with true in S.
        cbv iota in S. change (has (Z.lor ARMAS_RIGHT ARMAS_UPPER) ARMAS_UPPER) with true in S.
        change (has (Z.lor ARMAS_RIGHT ARMAS_UPPER) ARMAS_UNIT) with false in S.
        change (has (Z.lor ARMAS_RIGHT ARMAS_UPPER) ARMAS_TRANSA) with false in S.
        change (cols (V r1 c1 nc nc)) with nc in S. rewrite (sum_upto nc j) in S; [| lia |].
        2:{ intros q Hq. unfold optri, tri. replace (q =? j) with false by zlia. replace (q <? j) with false by zlia. ring. }
        rewrite !V_elt in S. unfold optri in S at 2. unfold tri in S at 1. rewrite Z.eqb_refl in S. rewrite V_elt in S.
        rewrite (vsum_ext K j _ (fun q => m'.[r + i, c + q] *' m.[r1 + q, c1 + j])) in S.
        + transitivity (one K *' m.[r + i, c + j]); [|ring]. rewrite <- S. ring.
        + intros q Hq. rewrite V_elt. unfold optri, tri. replace (q =? j) with false by zlia. replace (q <? j) with true by zlia.
          rewrite V_elt. reflexivity.
    Qed.

    (* ---- operations on vectors ---- *)
    Lemma V_col : forall r c n, inA A r c n 1 -> vok L (V r c n 1).
    Proof. intros r c n H. destruct (V_ok r c n 1 H) as (W & HL). split; [right; reflexivity|split; auto]. Qed.
    Lemma V_row : forall r c n, inA A r c 1 n -> vok L (V r c 1 n).
    Proof. intros r c n H. destruct (V_ok r c 1 n H) as (W & HL). split; [left; reflexivity|split; auto]. Qed.
    Lemma col_velt : forall (m : Z -> T) r c n k, 0 <= k < n -> velt m (V r c n 1) k = m.[r + k, c].
    Proof. intros. apply sub_col_velt; auto. Qed.
    Lemma row_velt : forall (m : Z -> T) r c n k, 0 <= k < n -> velt m (V r c 1 n) k = m.[r, c + k].
    Proof. intros. apply sub_row_velt; auto. Qed.
    Lemma col_len : forall r c n, vlen (V r c n 1) = n. Proof. intros. apply sub_col_len. Qed.
    Lemma row_len : forall r c n, vlen (V r c 1 n) = n. Proof. intros. apply sub_row_len. Qed.

    Lemma get_blk_wp : forall r c m (Q : T -> (Z -> T) -> Prop), inA A r c 1 1 -> Q (m.[r, c]) m ->
      wp (armas_get (zero K) (V r c 1 1) 0 0) L m Q.
    Proof.
      intros r c m Q H HQ. unfold armas_get. change (armas_size (V r c 1 1) =? 0) with false. cbv iota. change (0 <? 0) with false. cbv iota.
      change (rd (elems (V r c 1 1) + (0 * step (V r c 1 1) + 0))) with (armas_get_unsafe (T := T) (V r c 1 1) 0 0).
      apply get_unsafe_wp.
      - apply (V_ok _ _ _ _ H).
      - split; cbn [rows cols armas_submatrix_unsafe armas_make]; lia.
      - rewrite V_elt, !Z.add_0_r. exact HQ.
    Qed.

    Lemma set_blk_wp : forall r c v m (Q : unit -> (Z -> T) -> Prop), inA A r c 1 1 ->
      (forall m', m'.[r, c] = v -> blk_only r c 1 1 m m' -> Q tt m') ->
      wp (armas_set (V r c 1 1) 0 0 v) L m Q.
    Proof.
      intros r c v m Q H HQ. unfold armas_set. change (armas_size (V r c 1 1) =? 0) with false. cbv iota. change (0 <? 0) with false. cbv iota.
      change (wr (elems (V r c 1 1) + (0 * step (V r c 1 1) + 0)) v) with (armas_set_unsafe (T := T) (V r c 1 1) 0 0 v).
      apply set_unsafe_wp.
      - apply (V_ok _ _ _ _ H).
      - apply (V_ok _ _ _ _ H).
      - split; cbn [rows cols armas_submatrix_unsafe armas_make]; lia.
      - intros m' H1 _ H3. rewrite V_elt, !Z.add_0_r in H1. apply HQ; auto. apply blk_frame; auto. apply outb_oc; auto.
    Qed.

    Lemma scale_col_wp : forall r c n alpha m (Q : Z -> (Z -> T) -> Prop), inA A r c n 1 ->
      (forall m', (forall i, r <= i < r + n -> m'.[i, c] = m.[i, c] *' alpha) -> blk_only r c n 1 m m' -> Q 0 m') ->
      wp (armas_scale K (V r c n 1) alpha) L m Q.
    Proof.
      intros r c n alpha m Q H HQ. destruct (V_col _ _ _ H) as (Vv & W & HL).
      destruct (C10_scale T K L m (V r c n 1) alpha W HL Vv) as (m' & R1 & R2 & R3).
      exists 0, m'. split; [exact R1|]. apply HQ; [|apply blk_frame; auto; apply outb_oc; auto].
      intros i Hi. specialize (R2 (i - r)). rewrite col_len, !col_velt in R2 by lia.
      replace (r + (i - r)) with i in R2 by lia. apply R2. lia.
    Qed.

    Lemma scale_row_wp : forall r c n alpha m (Q : Z -> (Z -> T) -> Prop), inA A r c 1 n ->
      (forall m', (forall j, c <= j < c + n -> m'.[r, j] = m.[r, j] *' alpha) -> blk_only r c 1 n m m' -> Q 0 m') ->
      wp (armas_scale K (V r c 1 n) alpha) L m Q.
    Proof.
      intros r c n alpha m Q H HQ. destruct (V_row _ _ _ H) as (Vv & W & HL).
      destruct (C10_scale T K L m (V r c 1 n) alpha W HL Vv) as (m' & R1 & R2 & R3).
      exists 0, m'. split; [exact R1|]. apply HQ; [|apply blk_frame; auto; apply outb_oc; auto].
      intros i Hi. specialize (R2 (i - c)). rewrite row_len, !row_velt in R2 by lia.
      replace (c + (i - c)) with i in R2 by lia. apply R2. lia.
    Qed.

    Lemma dot_blk_wp : forall r c n r1 c1 m (Q : T -> (Z -> T) -> Prop), inA A r c 1 n -> inA A r1 c1 n 1 ->
      Q (vsum K n (fun q => m.[r, c + q] *' m.[r1 + q, c1])) m ->
      wp (l_dot K E (V r c 1 n) (V r1 c1 n 1)) L m Q.
    Proof.
      intros r c n r1 c1 m Q H1 H2 HQ. destruct (V_row _ _ _ H1) as (Vx & Wx & Lx). destruct (V_col _ _ _ H2) as (Vy & Wy & Ly).
      pose proof EO as (E1 & E2 & E3 & E4 & _). pose proof H1 as (_ & _ & _ & Hn & _ & Hc).
      unfold l_dot. eexists _, m. rewrite (C14_dot T K HR (e_fuel E) L m (e_b1 E) (e_opt E) (V r c 1 n) (V r1 c1 n 1)); auto.
      - rewrite row_len. split; [reflexivity|]. rewrite (vsum_ext K n _ (fun q => m.[r, c + q] *' m.[r1 + q, c1])); auto.
        intros q Hq. rewrite row_velt, col_velt by auto. reflexivity.
      - rewrite row_len, col_len. reflexivity.
      - rewrite row_len. destruct H1 as (? & ? & _). lia.
    Qed.

    (* y := y - X*x *)
    Lemma mvmult_blk_wp : forall r c nr c1 r1 kk m (Q : Z -> (Z -> T) -> Prop),
      inA A r c nr 1 -> inA A r c1 nr kk -> inA A r1 c kk 1 ->
      c1 + kk <= c \/ c + 1 <= c1 -> r1 + kk <= r \/ r + nr <= r1 ->
      (forall m', (forall i, r <= i < r + nr -> m'.[i, c] = m.[i, c] -' vsum K kk (fun q => m.[i, c1 + q] *' m.[r1 + q, c])) ->
         blk_only r c nr 1 m m' -> Q 0 m') ->
      wp (l_mvmult K E (one K) (V r c nr 1) (opp K (one K)) (V r c1 nr kk) (V r1 c kk 1) 0) L m Q.
    Proof.
      intros r c nr c1 r1 kk m Q I1 I2 I3 D1 D2 HQ. unfold l_mvmult. pose proof EO as (E1 & E2 & E3 & E4 & _).
      pose proof I1 as (H1 & H2 & H3 & H4 & H5 & H6). pose proof I2 as (G1 & G2 & G3 & G4 & G5 & G6). pose proof I3 as (F1 & F2 & F3 & F4 & F5 & F6).
      destruct (Z.eq_dec nr 0) as [Z1|Z1]; [|destruct (Z.eq_dec kk 0) as [Z3|Z3]].
      1, 2: exists 0, m; unfold armas_mvmult, armas_size; cbn [rows cols armas_submatrix_unsafe armas_make];
        rewrite ?Z1, ?Z3, ?Z.mul_0_r, ?Z.mul_0_l, ?orb_true_r; cbn [orb Z.eqb]; (split; [reflexivity|]);
        (apply HQ; [|split; [intros; reflexivity|apply outb_refl]]); intros i Hi.
      1: exfalso; lia.
      { rewrite Z3, vsum_0 by lia. ring. }
      destruct (V_col _ _ _ I1) as (Vy & Wy & Ly). destruct (V_col _ _ _ I3) as (Vx & Wx & Lx). destruct (V_ok _ _ _ _ I2) as (W2 & L2).
      destruct (C19_mvmult T K HR HE (e_fuel E) (e_b2 E) (e_opt E) L m (one K) (V r c nr 1) (opp K (one K)) (V r c1 nr kk) (V r1 c kk 1) 0)
        as (m' & R1 & R2 & R3); auto.
      + rewrite col_len. lia.
      + apply V_disj; auto; lia.
      + apply V_disj; auto; lia.
      + change (0 < nr). lia.
      + change (0 < kk). lia.
      + rewrite col_len. reflexivity.
      + rewrite col_len. reflexivity.
      + exists 0, m'. split; [exact R1|]. apply HQ; [|apply blk_frame; auto; apply outb_oc; auto].
        intros i Hi. specialize (R2 (i - r)). rewrite !col_len in R2. rewrite !col_velt in R2 by lia.
        replace (r + (i - r)) with i in R2 by lia.
        rewrite R2 by lia. change (has 0 ARMAS_TRANS) with false. cbv iota.
        rewrite (vsum_ext K kk _ (fun q => m.[i, c1 + q] *' m.[r1 + q, c])); [ring|].
        intros q Hq. rewrite !V_elt, col_velt by auto. repeat f_equal; lia.
    Qed.

    (* X := X - x*y *)
    Lemma mvupdate_blk_wp : forall r c nr nc c1 r1 m (Q : Z -> (Z -> T) -> Prop),
      inA A r c nr nc -> inA A r c1 nr 1 -> inA A r1 c 1 nc ->
      c1 + 1 <= c \/ c + nc <= c1 -> r1 + 1 <= r \/ r + nr <= r1 ->
      (forall m', (forall i j, inb r c nr nc i j -> m'.[i, j] = m.[i, j] -' m.[i, c1] *' m.[r1, j]) ->
         blk_only r c nr nc m m' -> Q 0 m') ->
      wp (l_mvupdate K E (one K) (V r c nr nc) (opp K (one K)) (V r c1 nr 1) (V r1 c 1 nc)) L m Q.
    Proof.
      intros r c nr nc c1 r1 m Q I1 I2 I3 D1 D2 HQ. unfold l_mvupdate. pose proof EO as (E1 & E2 & E3 & E4 & _).
      pose proof I1 as (H1 & H2 & H3 & H4 & H5 & H6).
      destruct (V_ok _ _ _ _ I1) as (W1 & L1). destruct (V_col _ _ _ I2) as (Vx & Wx & Lx). destruct (V_row _ _ _ I3) as (Vy & Wy & Ly).
      destruct (C20_mvupdate T K HR (e_fuel E) (e_b2 E) (e_opt E) L m (one K) (V r c nr nc) (opp K (one K)) (V r c1 nr 1) (V r1 c 1 nc))
        as (m' & R1 & R2 & R3); auto.
      + change (nr < Z.of_nat (e_fuel E)). lia.
      + apply V_disj; auto; lia.
      + apply V_disj; auto; lia.
      + rewrite col_len. reflexivity.
      + rewrite row_len. reflexivity.
      + exists 0, m'. split; [exact R1|]. apply HQ; [|apply blk_frame; auto; apply outb_oc; auto].
        intros i j (Hi & Hj). specialize (R2 (i - r) (j - c)). rewrite !V_elt in R2. rewrite col_velt, row_velt in R2 by lia.
        replace (r + (i - r)) with i in R2 by lia. replace (c + (j - c)) with j in R2 by lia.
        rewrite R2 by (split; cbn [rows cols armas_submatrix_unsafe armas_make]; lia). ring.
    Qed.

    (* x := T^-1 * x with the unit lower triangle *)
    Lemma mvsolve_unit_wp : forall flags r c nr r1 c1 m (Q : Z -> (Z -> T) -> Prop),
      flags = Z.lor ARMAS_LEFT (Z.lor ARMAS_LOWER ARMAS_UNIT) ->
      inA A r c nr 1 -> inA A r1 c1 nr nr -> r + nr <= r1 \/ r1 + nr <= r \/ c + 1 <= c1 \/ c1 + nr <= c ->
      (forall m', (forall i, 0 <= i < nr -> vsum K i (fun q => m.[r1 + i, c1 + q] *' m'.[r + q, c]) +' m'.[r + i, c] = m.[r + i, c]) ->
         blk_only r c nr 1 m m' -> Q 0 m') ->
      wp (l_mvsolve_trm K E (V r c nr 1) (one K) (V r1 c1 nr nr) flags) L m Q.
    Proof.
      intros flags r c nr r1 c1 m Q -> I1 I2 D HQ. unfold l_mvsolve_trm. pose proof EO as (E1 & E2 & E3 & E4 & _).
      pose proof I1 as (H1 & H2 & H3 & H4 & H5 & H6).
      destruct (V_col _ _ _ I1) as (Vx & Wx & Lx). destruct (V_ok _ _ _ _ I2) as (W2 & L2).
      destruct (C23_mvsolve_trm T K HF HE (e_fuel E) (e_b1 E) (e_b2 E) (e_opt E) L m (V r c nr 1) (one K) (V r1 c1 nr nr)
        (Z.lor ARMAS_LEFT (Z.lor ARMAS_LOWER ARMAS_UNIT))) as (m' & R1 & R2 & R3); auto.
      + rewrite col_len. lia.
      + apply V_disj; auto.
      + rewrite col_len. reflexivity.
      + exists 0, m'. split; [exact R1|]. apply HQ; [|apply blk_frame; auto; apply outb_oc; auto].
        intros i Hi. specialize (R2 i). rewrite col_len in R2. rewrite (sum_upto nr i) in R2; [|lia|].
        2:{ intros q Hq. unfold optri, tri. change (has (Z.lor ARMAS_LEFT (Z.lor ARMAS_LOWER ARMAS_UNIT)) ARMAS_TRANS) with false.
            change (has (Z.lor ARMAS_LEFT (Z.lor ARMAS_LOWER ARMAS_UNIT)) ARMAS_UPPER) with false. cbn [andb].
            replace (i =? q) with false by zlia. replace (q <? i) with false by zlia. ring. }
        rewrite !col_velt in R2 by auto. unfold optri in R2 at 2. unfold tri in R2 at 2. rewrite Z.eqb_refl in R2.
        change (has (Z.lor ARMAS_LEFT (Z.lor ARMAS_LOWER ARMAS_UNIT)) ARMAS_TRANS) with false in R2.
        change (has (Z.lor ARMAS_LEFT (Z.lor ARMAS_LOWER ARMAS_UNIT)) ARMAS_UPPER) with false in R2.
        change (has (Z.lor ARMAS_LEFT (Z.lor ARMAS_LOWER ARMAS_UNIT)) ARMAS_UNIT) with true in R2. cbn [andb] in R2.
        rewrite (vsum_ext K i _ (fun q => m.[r1 + i, c1 + q] *' m'.[r + q, c])) in R2.
        * transitivity (one K *' m.[r + i, c]); [|ring]. rewrite <- R2 by lia. ring.
        * intros q Hq. rewrite col_velt by lia. unfold optri, tri. replace (i =? q) with false by zlia. replace (q <? i) with true by zlia.
          rewrite V_elt. reflexivity.
    Qed.

    (* row interchanges on a block *)
    Lemma pivot_blk_wp : forall r c nr nc P m (Q : Z -> (Z -> T) -> Prop), inA A r c nr nc -> 0 <= npivots P <= nr ->
      (forall m', (forall i j, 0 <= i < nr -> 0 <= j < nc ->
           m'.[r + i, c + j] = m.[r + fwd nr (indexes P) (Z.to_nat (npivots P)) i, c + j]) -> blk_only r c nr nc m m' -> Q 0 m') ->
      wp (armas_pivot_rows (V r c nr nc) P ARMAS_PIVOT_FORWARD) L m Q.
    Proof.
      intros r c nr nc P m Q I1 HP HQ. destruct (V_ok _ _ _ _ I1) as (W & HL).
      destruct (C27_pivot_rows T L m (V r c nr nc) P ARMAS_PIVOT_FORWARD) as (m' & R1 & _ & R2 & _ & R3); auto.
      exists 0, m'. split; [exact R1|]. apply HQ; [|apply blk_frame; auto; apply outb_oc; auto].
      intros i j Hi Hj. specialize (R2 i j). rewrite !V_elt in R2. apply R2. split; auto.
    Qed.

    Lemma iamax_blk_wp : forall r c n m (Q : Z -> (Z -> T) -> Prop), ltb_ok K -> (forall t, ltb K (abs K t) (zero K) = false) ->
      inA A r c n 1 -> 0 < n ->
      (forall ix, 0 <= ix < n -> (forall i, 0 <= i < n -> ltb K (abs K (m.[r + ix, c])) (abs K (m.[r + i, c])) = false) -> Q ix m) ->
      wp (armas_iamax K (V r c n 1)) L m Q.
    Proof.
      intros r c n m Q Hl Ha H Hn HQ. destruct (V_col _ _ _ H) as (Vv & W & HL).
      destruct (C16_iamax T K Hl L m (V r c n 1) Ha Vv W HL) as (ix & R1 & R2 & R3 & _); [rewrite col_len; auto|].
      rewrite col_len in *. exists ix, m. split; [exact R1|]. apply HQ; auto. intros i Hi. specialize (R3 i Hi). rewrite !col_velt in R3 by auto. exact R3.
    Qed.

    (* consequences of blk_only *)
    Lemma bo_out : forall r c nr nc m m' i j, blk_only r c nr nc m m' -> pos A i j -> i < r \/ r + nr <= i \/ j < c \/ c + nc <= j ->
      m'.[i, j] = m.[i, j].
    Proof. intros r c nr nc m m' i j (H & _) Hp Ho. apply H; auto. unfold inb. lia. Qed.

    Lemma bo_outb : forall r c nr nc m m', blk_only r c nr nc m m' -> outb cb p A m m'.
    Proof. intros r c nr nc m m' (_ & H). exact H. Qed.
  End Blk.
End O.
