(* PSyr2k.v: symmetric rank-2k update.  As in PUpdTrm.v the programs fill parts of the triangle;
   the invariant says which elements have their final value. *)
From Coq Require Import ZArith Lia Bool ZifyBool Ring.
From Verif Require Import Mem MView SpecView PView PSub Hoare MFlags MBase MCopy PUpd PCopy
  MNum SpecNum MBlas1 PSum PBlas1 MElem PElem MBlas2 PMvec PBlas2
  PFrame SpecTrm MTrm PTrm MGemm PGemm PMatcpy PMult MTrsm PTrsm MSym PSym MUpdTrm PUpdTrm MLap PLap MSyr2k.
Local Open Scope Z_scope.
Local Open Scope prog_scope.

Ltac zonly := repeat match goal with H : ?P |- _ => match P with
  | Z => fail 1 | (_ <= _)%Z => fail 1 | (_ < _)%Z => fail 1 | @eq Z _ _ => fail 1 | _ /\ _ => fail 1 | _ \/ _ => fail 1 | ~ _ => fail 1
  | (_ <? _) = _ => fail 1 | (_ <=? _) = _ => fail 1 | (_ =? _) = _ => fail 1 | view => fail 1 | cache => fail 1
  | _ => clear H end end.
Ltac lia := zonly; zlia.

Local Notation subm := armas_submatrix_unsafe.

(* rows r .. r+n-1 of op(X) *)
Definition opv (t : bool) (P : Z) (X : view) (r n : Z) : view := if t then subm X 0 r P n else subm X r 0 n P.

Lemma opv_opv : forall t P X r n q k, opv t P (opv t P X r n) q k = opv t P X (r + q) k.
Proof. intros [] P X r n q k; unfold opv; rewrite sub_sub; reflexivity. Qed.

Lemma wp_unbind : forall {T A B} (c : M T A) (f : A -> M T B) L m Q,
  wp (bind c f) L m Q -> wp c L m (fun a m' => wp (f a) L m' Q).
Proof.
  intros T A B c f L m Q (b & m'' & E & H). rewrite run_bind in E. destruct (run c L m) as [(a, m')|] eqn:Ec; [|discriminate].
  exists a, m'. split; auto. exists b, m''. auto.
Qed.

Section S.
  Context {T : Type} (K : num T).
  Hypotheses (HR : is_ring K) (HE : eqb_ok K).
  Let HR' : ring_theory (zero K) (one K) (add K) (mul K) (sub K) (opp K) eq := HR.
  Add Ring KringS2 : HR'.
  Local Notation "a +' b" := (add K a b) (at level 50, left associativity).
  Local Notation "a *' b" := (mul K a b) (at level 40, left associativity).

  Variables (E : lenv) (L : Z -> bool) (X Y C : view) (alpha beta : T) (flags P n : Z) (t : bool).
  Variable Bf : Z -> Prop.
  Variable m0 : Z -> T.
  Let up := has flags ARMAS_UPPER.

  Hypotheses (RC : rows C = n) (CC : cols C = n) (OC : tok L up C) (OX : mok L X) (OY : mok L Y)
    (DX : disjoint C X) (DY : disjoint C Y)
    (BX : forall a, Bf a -> ~ cell X a) (BY : forall a, Bf a -> ~ cell Y a) (BC : forall a, Bf a -> ~ cell C a)
    (SX : if t then rows X = P /\ cols X = n else rows X = n /\ cols X = P)
    (SY : if t then rows Y = P /\ cols Y = n else rows Y = n /\ cols Y = P)
    (HP : 0 < P) (Hb1 : 0 <= e_b1 E) (Hb2 : e_b2 E = 0 \/ 2 <= e_b2 E)
    (Hf1 : n < Z.of_nat (e_fuel E)) (Hf2 : P < Z.of_nat (e_fuel E)).

  Definition ov (m : Z -> T) (V : view) i k : T := if t then elt m V k i else elt m V i k.
  Definition fin (m : Z -> T) i j : T :=
    elt m C i j *' beta +' (vsum K P (fun k => ov m X i k *' ov m Y j k) +' vsum K P (fun k => ov m Y i k *' ov m X j k)) *' alpha.
  Definition frame (m m' : Z -> T) : Prop := forall a, ~ cell C a -> ~ Bf a -> m' a = m a.

  Lemma frame_ov : forall m m' i k, frame m m' -> 0 <= i < n -> 0 <= k < P -> ov m' X i k = ov m X i k /\ ov m' Y i k = ov m Y i k.
  Proof.
    intros m m' i k F Hi Hk. unfold ov.
    assert (G : forall V, disjoint C V -> (forall a, Bf a -> ~ cell V a) ->
      (if t then rows V = P /\ cols V = n else rows V = n /\ cols V = P) ->
      (if t then elt m' V k i else elt m' V i k) = (if t then elt m V k i else elt m V i k)).
    { intros V D1 D2 S. destruct t; apply F; intros H; first [apply (D1 _ H)|apply (D2 _ H)]; eexists _, _; (split; [|reflexivity]); split; lia. }
    split; apply G; auto.
  Qed.

  Definition inv (D : Z -> Z -> bool) (m : Z -> T) : Prop :=
    (forall i j, pos C i j -> elt m C i j = if D i j then fin m0 i j else elt m0 C i j) /\ frame m0 m.

  Definition fills (p : M T unit) (D : Z -> Z -> bool) : Prop :=
    forall D0 m (Q : unit -> (Z -> T) -> Prop), inv D0 m ->
      (forall i j, pos C i j -> D i j = true -> D0 i j = false) ->
      (forall m', inv (fun i j => D0 i j || D i j) m' -> Q tt m') -> wp p L m Q.

  Lemma inv_ext : forall D D' m, (forall i j, pos C i j -> D i j = D' i j) -> inv D m -> inv D' m.
  Proof. intros D D' m H (V & F). split; auto. intros i j Hp. rewrite <- H by auto. auto. Qed.

  Lemma fills_ext : forall p D D', (forall i j, pos C i j -> D i j = D' i j) -> fills p D -> fills p D'.
  Proof.
    intros p D D' H Hp D0 m Q HI Hd HQ. apply (Hp D0); auto.
    - intros i j Hij. rewrite H by auto. auto.
    - intros m' HI'. apply HQ. eapply inv_ext; [|exact HI']. intros i j Hij. cbn beta. rewrite H by auto. reflexivity.
  Qed.

  Lemma fills_ret : fills (ret tt) (fun _ _ => false).
  Proof.
    intros D0 m Q HI Hd HQ. apply wp_ret, HQ. eapply inv_ext; [|exact HI]. intros i j _. cbn beta. rewrite orb_false_r. reflexivity.
  Qed.

  Lemma fills_seq : forall p1 D1 p2 D2, fills p1 D1 -> fills p2 D2 ->
    (forall i j, pos C i j -> D2 i j = true -> D1 i j = false) -> fills (p1 ;; p2) (fun i j => D1 i j || D2 i j).
  Proof.
    intros p1 D1 p2 D2 H1 H2 H12 D0 m Q HI Hd HQ. wbind. apply (H1 D0); auto.
    { intros i j Hp E0. apply Hd; auto. rewrite E0. reflexivity. }
    intros m1 HI1. apply (H2 (fun i j => D0 i j || D1 i j)); auto.
    - intros i j Hp E0. rewrite (H12 i j Hp E0), (Hd i j Hp); [reflexivity|]. rewrite E0. apply orb_true_r.
    - intros m' HI'. apply HQ. eapply inv_ext; [|exact HI']. intros i j _. cbn beta. rewrite orb_assoc. reflexivity.
  Qed.

  Lemma fills_block : forall p r c nr nc, 0 <= r -> 0 <= c -> 0 <= nr -> 0 <= nc -> r + nr <= n -> c + nc <= n ->
    (forall m (Q : unit -> (Z -> T) -> Prop),
       (forall m', (forall i j, 0 <= i < nr -> 0 <= j < nc -> elt m' C (r + i) (c + j) = fin m (r + i) (c + j)) ->
          (forall a, ~ cell (subm C r c nr nc) a -> ~ Bf a -> m' a = m a) -> Q tt m') -> wp p L m Q) ->
    fills p (inblk r c nr nc).
  Proof.
    intros p r c nr nc H1 H2 H3 H4 H5 H6 Hp D0 m Q (V & F) Hd HQ. apply Hp. intros m' V' F'. apply HQ.
    pose proof OC as (WC & _). split.
    - intros i j Hij. pose proof Hij as (Hi & Hj). destruct (inblk r c nr nc i j) eqn:E0; unfold inblk in E0.
      + assert (r <= i < r + nr /\ c <= j < c + nc) as (? & ?) by (clear - E0; Lia.lia).
        rewrite orb_true_r. replace i with (r + (i - r)) by ring. replace j with (c + (j - c)) by ring.
        rewrite V' by lia. replace (r + (i - r)) with i by ring. replace (c + (j - c)) with j by ring.
        unfold fin. rewrite V by auto. rewrite (Hd i j) by auto. f_equal. f_equal.
        f_equal; apply vsum_ext; intros k Hk;
          destruct (frame_ov m0 m i k F) as (E1 & E2); try lia; destruct (frame_ov m0 m j k F) as (E3 & E4); try lia;
          rewrite ?E1, ?E2, ?E3, ?E4; reflexivity.
      + rewrite orb_false_r, <- V by auto. rewrite !elt_mad. apply F'.
        * intros Hc. apply subm_cell in Hc; auto; try lia. clear - E0 Hc. Lia.lia.
        * intros Hc. apply (BC _ Hc). exists i, j. auto.
    - intros a Ha Hb. rewrite F'; auto. intros Hc. apply Ha. eapply subm_in; [..|exact Hc]; auto; lia.
  Qed.

  (* ---- views of the operands ---- *)
  Lemma opvX_ok : forall r k, 0 <= r -> 0 <= k -> r + k <= n ->
    mok L (opv t P X r k) /\ (forall a, cell (opv t P X r k) a -> cell X a).
  Proof.
    intros r k H1 H2 H3. pose proof OX as (WX & _). unfold opv. destruct t;
      (split; [apply mok_sub; auto; lia|intros a Ha; eapply subm_in; [..|exact Ha]; auto; lia]).
  Qed.
  Lemma opvY_ok : forall r k, 0 <= r -> 0 <= k -> r + k <= n ->
    mok L (opv t P Y r k) /\ (forall a, cell (opv t P Y r k) a -> cell Y a).
  Proof.
    intros r k H1 H2 H3. pose proof OY as (WY & _). unfold opv. destruct t;
      (split; [apply mok_sub; auto; lia|intros a Ha; eapply subm_in; [..|exact Ha]; auto; lia]).
  Qed.
  Lemma subC_ok : forall r c nr nc, 0 <= r -> 0 <= c -> 0 <= nr -> 0 <= nc -> r + nr <= n -> c + nc <= n ->
    (forall i j, r <= i < r + nr -> c <= j < c + nc -> intri up i j) ->
    mok L (subm C r c nr nc) /\ (forall a, cell (subm C r c nr nc) a -> cell C a).
  Proof.
    intros r c nr nc H1 H2 H3 H4 H5 H6 Hin. pose proof OC as (WC & _).
    split; [apply tok_blk with (up := up); auto; lia|intros a Ha; eapply subm_in; [..|exact Ha]; auto; lia].
  Qed.
  Lemma opv_velt : forall (m : Z -> T) V r k, 0 <= k < P -> velt m (opv t P V r 1) k = ov m V r k.
  Proof. intros m V r k Hk. unfold opv, ov. destruct t; rewrite ?sub_col_velt, ?sub_row_velt, Z.add_0_l by lia; reflexivity. Qed.
  Lemma opv_vlen : forall V r, vlen (opv t P V r 1) = P.
  Proof. intros V r. unfold opv, vlen. destruct t; cbn [rows cols armas_submatrix_unsafe armas_make]; lia. Qed.
  Lemma opv_vok : forall V r, mok L (opv t P V r 1) -> vok L (opv t P V r 1).
  Proof. intros V r (W & A). split; [|split; auto]. unfold opv. destruct t; [right|left]; reflexivity. Qed.

  (* the diagonal element *)
  Lemma diag_fills : forall i, 0 <= i < n ->
    fills (ak <- armas_adot_unsafe K (e_fuel E) (e_b1 E) (zero K) ((one K +' one K) *' alpha) (opv t P X i 1) (opv t P Y i 1) ;;
           a <- armas_get_unsafe (subm C i i 1 1) 0 0 ;;
           armas_set_unsafe (subm C i i 1 1) 0 0 (ak +' a *' beta)) (inblk i i 1 1).
  Proof.
    intros i Hi. apply fills_block; try lia. intros m Q HQ.
    destruct (opvX_ok i 1) as (O1 & I1); try lia. destruct (opvY_ok i 1) as (O2 & I2); try lia.
    destruct (subC_ok i i 1 1) as (O3 & I3); try lia. { intros; unfold intri; destruct up; lia. }
    wbind. apply (adot_wp K HR); [apply opv_vok; auto|apply opv_vok; auto|rewrite !opv_vlen; lia|auto|rewrite opv_vlen; auto|].
    rewrite opv_vlen. pose proof O3 as (W3 & L3).
    wbind. apply get_unsafe_wp; [exact L3|split; cbn; lia|].
    apply set_unsafe_wp; auto; [split; cbn; lia|]. intros m' V1 V2 O. apply HQ.
    - intros a b Ha Hb. replace a with 0 by lia. replace b with 0 by lia. rewrite <- (subm_elt m' C i i 1 1 0 0), V1.
      rewrite subm_elt, !Z.add_0_r. unfold fin.
      rewrite (vsum_ext K P _ (fun k => ov m X i k *' ov m Y i k)) by (intros k Hk; rewrite !opv_velt by auto; reflexivity).
      rewrite (vsum_ext K P (fun k => ov m Y i k *' ov m X i k) (fun k => ov m X i k *' ov m Y i k)) by (intros; ring). ring.
    - intros a Ha _. apply O, Ha.
  Qed.


  (* the part of a column above (a row left of) the diagonal, from o on *)
  Definition off (o i : Z) : view := if up then subm C o (o + i) i 1 else subm C (o + i) o 1 i.
  Definition offblk (o i : Z) : Z -> Z -> bool := if up then inblk o (o + i) i 1 else inblk (o + i) o 1 i.

  Lemma mv_wp : forall V W b o i m (Q : unit -> (Z -> T) -> Prop), 0 <= o -> 0 < i -> o + i < n ->
    mok L (opv t P V o i) -> mok L (opv t P W (o + i) 1) -> disjoint (off o i) (opv t P V o i) -> disjoint (off o i) (opv t P W (o + i) 1) ->
    (forall m', (forall k, 0 <= k < i -> velt m' (off o i) k = b *' velt m (off o i) k +' alpha *' vsum K P (fun j => ov m V (o + k) j *' ov m W (o + i) j)) ->
       only_changes (off o i) m m' -> Q tt m') ->
    wp (armas_mvmult_unsafe K (e_fuel E) (e_b2 E) b (off o i) alpha (opv t P V o i) (opv t P W (o + i) 1) (if t then ARMAS_TRANS else 0)) L m Q.
  Proof.
    intros V W b o i m Q Ho Hi Hn O1 O2 D1 D2 HQ.
    assert (HO : mok L (off o i) /\ vlen (off o i) = i).
    { assert (Eu : up = true \/ up = false) by (destruct up; auto). unfold off, vlen. destruct Eu as [Eu|Eu]; rewrite Eu;
        (split; [|cbn [rows cols armas_submatrix_unsafe armas_make]; lia]); apply subC_ok; try lia; intros; unfold intri; rewrite Eu; lia. }
    destruct HO as (O3 & E3).
    apply (mvmult_unsafe_wp K HR HE); auto.
    - destruct t; reflexivity.
    - rewrite E3. lia.
    - destruct O3. split; [|split; auto]. unfold off. destruct up; [right|left]; reflexivity.
    - apply opv_vok; auto.
    - unfold opv. destruct t; cbn [rows armas_submatrix_unsafe armas_make]; lia.
    - unfold opv. destruct t; cbn [cols armas_submatrix_unsafe armas_make]; lia.
    - unfold gsize. rewrite E3, opv_vlen. unfold opv. destruct t; cbn [rows cols armas_submatrix_unsafe armas_make];
        change (has 0 ARMAS_TRANS) with false; change (has ARMAS_TRANS ARMAS_TRANS) with true; cbn iota; lia.
    - intros m' V' O. apply HQ; auto. intros k Hk. rewrite V' by (rewrite E3; lia). rewrite opv_vlen. f_equal. f_equal.
      apply vsum_ext. intros j Hj. rewrite opv_velt by auto. f_equal. unfold opm, opv, ov.
      destruct t; [change (has ARMAS_TRANS ARMAS_TRANS) with true|change (has 0 ARMAS_TRANS) with false]; cbn iota;
          rewrite subm_elt, ?Z.add_0_l; reflexivity.
  Qed.

  Lemma off_fills : forall o i, 0 <= o -> 0 <= i -> o + i < n ->
    fills (armas_mvmult_unsafe K (e_fuel E) (e_b2 E) beta (off o i) alpha (opv t P Y o i) (opv t P X (o + i) 1) (if t then ARMAS_TRANS else 0) ;;
           armas_mvmult_unsafe K (e_fuel E) (e_b2 E) (one K) (off o i) alpha (opv t P X o i) (opv t P Y (o + i) 1) (if t then ARMAS_TRANS else 0)) (offblk o i).
  Proof.
    intros o i Ho Hi Hn. destruct (Z.eq_dec i 0) as [->|Hz].
    { assert (Z0 : forall V, armas_size (opv t P V o 0) =? 0 = true) by (intros V; unfold opv, armas_size; destruct t; cbn [rows cols armas_submatrix_unsafe armas_make]; lia).
      unfold armas_mvmult_unsafe. rewrite !Z0.
      apply fills_ext with (D := fun _ _ => false || false); [|apply (fills_seq _ (fun _ _ => false) _ (fun _ _ => false)); auto; apply fills_ret].
      intros a b _. unfold offblk, inblk. destruct up; Lia.lia. }
    destruct (opvX_ok (o + i) 1) as (O1 & I1); try lia. destruct (opvY_ok (o + i) 1) as (O2 & I2); try lia.
    destruct (opvX_ok o i) as (O3 & I3); try lia. destruct (opvY_ok o i) as (O4 & I4); try lia.
    assert (I5 : forall a, cell (off o i) a -> cell C a).
    { pose proof OC as (WC & _). intros a Ha. unfold off in Ha. destruct up; (eapply subm_in; [..|exact Ha]; auto; lia). }
    assert (D1 : disjoint (off o i) (opv t P X o i)) by (intros a Ha Hb; apply (DX a); auto).
    assert (D2 : disjoint (off o i) (opv t P Y o i)) by (intros a Ha Hb; apply (DY a); auto).
    assert (D3 : disjoint (off o i) (opv t P X (o + i) 1)) by (intros a Ha Hb; apply (DX a); auto).
    assert (D4 : disjoint (off o i) (opv t P Y (o + i) 1)) by (intros a Ha Hb; apply (DY a); auto).
    assert (W : forall m (Q : unit -> (Z -> T) -> Prop),
       (forall m', (forall k, 0 <= k < i -> velt m' (off o i) k = velt m (off o i) k *' beta +'
            (vsum K P (fun j => ov m X (o + k) j *' ov m Y (o + i) j) +' vsum K P (fun j => ov m Y (o + k) j *' ov m X (o + i) j)) *' alpha) ->
          only_changes (off o i) m m' -> Q tt m') ->
       wp (armas_mvmult_unsafe K (e_fuel E) (e_b2 E) beta (off o i) alpha (opv t P Y o i) (opv t P X (o + i) 1) (if t then ARMAS_TRANS else 0) ;;
           armas_mvmult_unsafe K (e_fuel E) (e_b2 E) (one K) (off o i) alpha (opv t P X o i) (opv t P Y (o + i) 1) (if t then ARMAS_TRANS else 0)) L m Q).
    { intros m Q HQ. wbind. apply mv_wp; auto; [lia|]. intros m1 V1 F1. apply mv_wp; auto; [lia|]. intros m2 V2 F2. apply HQ.
      - intros k Hk. rewrite V2, V1 by auto.
        rewrite (vsum_ext K P (fun j => ov m1 X (o + k) j *' ov m1 Y (o + i) j) (fun j => ov m X (o + k) j *' ov m Y (o + i) j)); [ring|].
        intros j Hj. assert (F : frame m m1) by (intros a Ha _; apply F1; intros Hc; apply Ha; auto).
        destruct (frame_ov m m1 (o + k) j F) as (-> & _); try lia. destruct (frame_ov m m1 (o + i) j F) as (_ & ->); try lia. reflexivity.
      - intros a Ha. rewrite F2, F1; auto. }
    assert (Eu : up = true \/ up = false) by (destruct up; auto). unfold offblk, off in W |- *. destruct Eu as [Eu|Eu]; rewrite Eu in W |- *.
    - apply fills_block; try lia. intros m Q HQ. apply W. intros m' V F. apply HQ.
      + intros a b Ha Hb. replace b with 0 by lia. rewrite Z.add_0_r.
        specialize (V a Ha). rewrite !sub_col_velt in V by lia. exact V.
      + intros a Ha _. apply F, Ha.
    - apply fills_block; try lia. intros m Q HQ. apply W. intros m' V F. apply HQ.
      + intros a b Ha Hb. replace a with 0 by lia. rewrite Z.add_0_r.
        specialize (V b Hb). rewrite !sub_row_velt in V by lia. unfold fin. rewrite V. f_equal. f_equal.
        rewrite (vsum_ext K P (fun k => ov m X (o + i) k *' ov m Y (o + b) k) (fun k => ov m Y (o + b) k *' ov m X (o + i) k)) by (intros; ring).
        rewrite (vsum_ext K P (fun k => ov m Y (o + i) k *' ov m X (o + b) k) (fun k => ov m X (o + b) k *' ov m Y (o + i) k)) by (intros; ring). ring.
      + intros a Ha _. apply F, Ha.
  Qed.

  (* the triangle of size k at (o,o) *)
  Definition tri (o k i j : Z) : bool :=
    if up then (o <=? i) && (i <=? j) && (j <? o + k) else (o <=? j) && (j <=? i) && (i <? o + k).

  Lemma sk_part_at : forall V o k h, 0 <= h <= k -> sk_partition t (opv t P V o k) h = (opv t P V o h, opv t P V (o + h) (k - h)).
  Proof.
    intros V o k h Hh. unfold sk_partition, opv. destruct t; unfold mat_partition_1x2, mat_partition_2x1;
      cbn [rows cols armas_submatrix_unsafe armas_make]; (replace (h >? k) with false by (clear - Hh; Lia.lia)); rewrite !sub_sub, ?Z.add_0_r; reflexivity.
  Qed.
  Lemma sk_repart_at : forall V o k q, 0 <= q < k ->
    sk_repartition t (opv t P V o q) (opv t P V o k) 1 = (opv t P V o q, opv t P V (o + q) 1, opv t P V (o + q + 1) (k - q - 1)).
  Proof.
    intros V o k h Hh. unfold sk_repartition, opv. destruct t; unfold mat_repartition_1x2to1x3, mat_repartition_2x1to3x1;
      cbn [rows cols armas_submatrix_unsafe armas_make].
    - replace (h + 1 >? k) with false by (clear - Hh; Lia.lia). rewrite !sub_sub, ?Z.add_0_r, ?Z.add_assoc. reflexivity.
    - replace (1 + h >? k) with false by (clear - Hh; Lia.lia). rewrite !sub_sub, ?Z.add_0_r, ?Z.add_assoc. reflexivity.
  Qed.
  Lemma sk_cont_at : forall V o k q, fst (sk_continue t (opv t P V o q) (opv t P V (o + q) 1) (opv t P V o k)) = opv t P V o (q + 1).
  Proof.
    intros V o k q. unfold sk_continue, opv. destruct t; cbn [fst mat_continue_1x3to1x2 mat_continue_3x1to2x1 rows cols armas_submatrix_unsafe armas_make];
      rewrite !sub_sub, ?Z.add_0_r; reflexivity.
  Qed.

  Lemma unb_fills : forall o k, 0 <= o -> 0 <= k -> o + k <= n ->
    fills (update_syr2k_unb K E t beta (subm C o o k k) alpha (opv t P X o k) (opv t P Y o k) flags) (tri o k).
  Proof.
    intros o k Ho Hk Hn D0 m Q HI Hd HQ. unfold update_syr2k_unb. cbv zeta. rewrite part_at, !sk_part_at by lia. cbn [fst].
    wbind.
    apply (wp_down L (subm C o o k k) 1 more (k - 1)) with
      (I := fun q s m => s = (opv t P X o q, opv t P Y o q) /\ inv (fun i j => D0 i j || tri o q i j) m);
      change (rows (subm C o o k k)) with k; change (cols (subm C o o k k)) with k; try rewrite Z.min_id; try lia.
    - intros q Hq. pose proof (more_iff (subm C o o k k) q) as X0.
      change (rows (subm C o o k k)) with k in X0; change (cols (subm C o o k k)) with k in X0. rewrite Z.min_id in X0. apply X0. lia.
    - split; [reflexivity|]. eapply inv_ext; [|exact HI]. intros i j _. cbn beta. unfold tri. destruct up; clear; Lia.lia.
    - intros q s m1 Hq (-> & HI1). cbv zeta. rewrite Z.min_id. replace (Z.min 1 (k - q)) with 1 by (clear - Hq; Lia.lia). cbn [fst snd].
      rewrite !sk_repart_at by lia. unfold b3at. cbn [A11 A01 A10]. rewrite !sub_sub, !Z.add_0_r.
      assert (C1 : forall i j, pos C i j -> inblk (o + q) (o + q) 1 1 i j = true -> D0 i j || tri o q i j = false).
      { intros i j Hp Hi. assert (Ht : tri o q i j = false) by (unfold tri, inblk in *; destruct up; clear - Hi; Lia.lia).
        rewrite Ht, orb_false_r. apply Hd; auto. unfold tri, inblk in *; destruct up; clear - Hi Hq Ho; Lia.lia. }
      pose proof (diag_fills (o + q) ltac:(lia) _ m1 (fun _ m2 => inv (fun i j => (D0 i j || tri o q i j) || inblk (o + q) (o + q) 1 1 i j) m2) HI1 C1 (fun m' H => H)) as W0'.
      apply wp_unbind in W0'.
      wbind. eapply wp_conseq; [exact W0'|]. cbn beta. intros ak m2 W1. apply wp_unbind in W1. wbind. eapply wp_conseq; [exact W1|]. cbn beta. intros a m3 W2. wbind.
      eapply wp_conseq; [exact W2|]. cbn beta. intros [] m4 HI4. wbind.
      assert (Pr : (if up then
            armas_mvmult_unsafe K (e_fuel E) (e_b2 E) beta (subm C o (o + q) q 1) alpha (opv t P Y o q) (opv t P X (o + q) 1) (if t then ARMAS_TRANS else 0);;
            armas_mvmult_unsafe K (e_fuel E) (e_b2 E) (one K) (subm C o (o + q) q 1) alpha (opv t P X o q) (opv t P Y (o + q) 1) (if t then ARMAS_TRANS else 0)
          else
            armas_mvmult_unsafe K (e_fuel E) (e_b2 E) beta (subm C (o + q) o 1 q) alpha (opv t P Y o q) (opv t P X (o + q) 1) (if t then ARMAS_TRANS else 0);;
            armas_mvmult_unsafe K (e_fuel E) (e_b2 E) (one K) (subm C (o + q) o 1 q) alpha (opv t P X o q) (opv t P Y (o + q) 1) (if t then ARMAS_TRANS else 0))
        = (armas_mvmult_unsafe K (e_fuel E) (e_b2 E) beta (off o q) alpha (opv t P Y o q) (opv t P X (o + q) 1) (if t then ARMAS_TRANS else 0) ;;
           armas_mvmult_unsafe K (e_fuel E) (e_b2 E) (one K) (off o q) alpha (opv t P X o q) (opv t P Y (o + q) 1) (if t then ARMAS_TRANS else 0)))
        by (unfold off; destruct up; reflexivity).
      fold up. rewrite Pr. clear Pr. apply (off_fills o q ltac:(lia) ltac:(lia) ltac:(lia) _ m4 _ HI4).
      { intros i j Hp Hi. assert (Ht : tri o q i j = false /\ inblk (o + q) (o + q) 1 1 i j = false)
          by (unfold tri, inblk, offblk, inblk in *; destruct up; clear - Hi; Lia.lia).
        destruct Ht as (-> & ->). rewrite !orb_false_r. apply Hd; auto. unfold tri, offblk, inblk in *; destruct up; clear - Hi Hq Ho; Lia.lia. }
      intros m5 HI5. apply wp_ret. rewrite !sk_cont_at. split; [reflexivity|]. eapply inv_ext; [|exact HI5].
      intros i j Hp. cbn beta. unfold tri, offblk, inblk. destruct (D0 i j); [reflexivity|]. cbn [orb]. destruct up; clear - Hq Ho; Lia.lia.
    - intros q s m1 Hq1 Hq2 (-> & HI1). apply wp_ret, HQ. replace q with k in HI1 by lia. exact HI1.
  Qed.

  Section Rec.
    Variable ch : cache.
    Let Av := mkview (Acpy ch) (ab_step ch) (KB ch) (MB ch).
    Let Bv := mkview (Bcpy ch) (ab_step ch) (KB ch) (NB ch).
    Hypotheses (OK : blocks_ok L ch) (Hrb : 0 < rb ch <= MB ch) (HAv : forall a, cell Av a -> Bf a) (HBv : forall a, cell Bv a -> Bf a).
    Let fl := if t then ARMAS_TRANSA else ARMAS_TRANSB.

    Lemma fl_bits : has fl transA = t /\ has fl transB = negb t /\ has fl absflags = false.
    Proof. unfold fl. destruct t; repeat split; reflexivity. Qed.

    (* op(V)*op(W)^T for blocks of rows of op(V), op(W) *)
    Lemma dot_opv : forall (m : Z -> T) V W r nr c nc i j,
      opdot K (opv t P V r nr) (opv t P W c nc) fl m P i j = vsum K P (fun k => ov m V (r + i) k *' ov m W (c + j) k).
    Proof.
      intros m V W r nr c nc i j. unfold opdot. apply vsum_ext. intros k Hk. destruct fl_bits as (F1 & F2 & F3).
      unfold opA, opB, absf. rewrite F1, F2, F3. unfold ov, opv. destruct t; cbn [negb]; rewrite !subm_elt, ?Z.add_0_l; reflexivity.
    Qed.

    Lemma two_fills : forall r c nr nc, 0 <= r -> 0 <= c -> 0 <= nr -> 0 <= nc -> r + nr <= n -> c + nc <= n ->
      (forall i j, r <= i < r + nr -> c <= j < c + nc -> intri up i j) ->
      fills (armas_mult_kernel K beta (subm C r c nr nc) alpha (opv t P X r nr) (opv t P Y c nc) fl ch ;;
             armas_mult_kernel_nc K (subm C r c nr nc) alpha (opv t P Y r nr) (opv t P X c nc) fl ch) (inblk r c nr nc).
    Proof.
      intros r c nr nc H1 H2 H3 H4 H5 H6 Hin. apply fills_block; auto. intros m Q HQ.
      destruct (subC_ok r c nr nc) as (O1 & I1); try lia; auto.
      destruct (opvX_ok r nr) as (O2 & I2); try lia. destruct (opvY_ok c nc) as (O3 & I3); try lia.
      destruct (opvY_ok r nr) as (O4 & I4); try lia. destruct (opvX_ok c nc) as (O5 & I5); try lia.
      destruct fl_bits as (F1 & F2 & F3).
      assert (SA : forall V, shapeA (subm C r c nr nc) (opv t P V r nr) fl P)
        by (intros V; unfold shapeA, opv; rewrite F1; destruct t; cbn [rows cols armas_submatrix_unsafe armas_make]; lia).
      assert (SB : forall V, shapeB (subm C r c nr nc) (opv t P V c nc) fl P)
        by (intros V; unfold shapeB, opv; rewrite F2; destruct t; cbn [negb rows cols armas_submatrix_unsafe armas_make]; lia).
      wbind. apply (kernel_wp K HR L _ _ _ alpha fl P ch); auto; try lia; try (intros a Ha Hb; first [apply (DX a); auto; fail|apply (DY a); auto; fail
        |apply (BX a); auto; fail|apply (BY a); auto; fail|apply (BC a); auto; fail]).
      intros m1 V1 G1.
      apply (kernel_nc_wp K HR L _ _ _ alpha fl P ch); auto; try lia; try (intros a Ha Hb; first [apply (DX a); auto; fail|apply (DY a); auto; fail
        |apply (BX a); auto; fail|apply (BY a); auto; fail|apply (BC a); auto; fail]).
      intros m2 V2 G2. apply HQ.
      - intros i j Hi Hj. rewrite <- (subm_elt _ C r c nr nc i j), V2, V1 by (split; cbn; lia). rewrite !dot_opv, subm_elt. unfold fin.
        rewrite (vsum_ext K P (fun k => ov m1 Y (r + i) k *' ov m1 X (c + j) k) (fun k => ov m Y (r + i) k *' ov m X (c + j) k)); [ring|].
        intros k Hk. assert (F : frame m m1) by (intros a Ha Hb; apply G1; auto).
        destruct (frame_ov m m1 (r + i) k F) as (_ & ->); try lia. destruct (frame_ov m m1 (c + j) k F) as (-> & _); try lia. reflexivity.
      - intros a Ha Hb. rewrite G2, G1; auto.
    Qed.

    Lemma rec_fills : forall min, 2 <= min -> forall d o k, 0 <= o -> 0 <= k -> o + k <= n -> k < Z.of_nat d ->
      fills (update_syr2k_recursive K E d t beta (subm C o o k k) alpha (opv t P X o k) (opv t P Y o k) flags min ch) (tri o k).
    Proof.
      intros min Hmin d. induction d as [|d IH]; intros o k Ho Hk Hn Hd; [exfalso; lia|].
      cbn [update_syr2k_recursive]. change (rows (subm C o o k k)) with k.
      destruct (k <? min) eqn:Ek; [apply unb_fills; auto|].
      cbv zeta. assert (Hh : 0 < k / 2 < k) by (split; [apply Z.div_str_pos|apply Z.div_lt]; lia).
      set (h := k / 2) in *. clearbody h. rewrite !sk_part_at by lia. unfold mat_partition_2x2. cbn [ATL ATR ABL ABR].
      change (rows (subm C o o k k)) with k. change (cols (subm C o o k k)) with k. rewrite !sub_sub, !Z.add_0_r.
      assert (H1 := IH o h ltac:(lia) ltac:(lia) ltac:(lia) ltac:(lia)).
      assert (H2 := IH (o + h) (k - h) ltac:(lia) ltac:(lia) ltac:(lia) ltac:(lia)). fold up.
      assert (Eu : up = true \/ up = false) by (destruct up; auto). destruct Eu as [Eu|Eu]; rewrite Eu.
      - eapply fills_ext; [|eapply fills_seq; [exact H1|eapply fills_seq; [apply two_fills; try lia; intros i j Hi Hj; unfold intri; rewrite Eu; lia|exact H2|]|]].
        + intros i j _. unfold tri, inblk. rewrite Eu. clear - Hh Ho. Lia.lia.
        + intros i j _. unfold tri, inblk. rewrite Eu. clear - Hh Ho. Lia.lia.
        + intros i j _. unfold tri, inblk. rewrite Eu. clear - Hh Ho. Lia.lia.
      - eapply fills_ext; [|eapply fills_seq; [exact H1|eapply fills_seq; [apply two_fills; try lia; intros i j Hi Hj; unfold intri; rewrite Eu; lia|exact H2|]|]].
        + intros i j _. unfold tri, inblk. rewrite Eu. clear - Hh Ho. Lia.lia.
        + intros i j _. unfold tri, inblk. rewrite Eu. clear - Hh Ho. Lia.lia.
        + intros i j _. unfold tri, inblk. rewrite Eu. clear - Hh Ho. Lia.lia.
    Qed.
  End Rec.

  (* the whole update from a program that fills the triangle *)
  Lemma fills_wp : forall p (Q : unit -> (Z -> T) -> Prop), fills p (tri 0 n) ->
    (forall m', (forall i j, pos C i j -> elt m' C i j =
         if (if up then i <=? j else j <=? i) then fin m0 i j else elt m0 C i j) ->
       frame m0 m' -> Q tt m') -> wp p L m0 Q.
  Proof.
    intros p Q Hp HQ. apply (Hp (fun _ _ => false)).
    - split; [reflexivity|]. intros a _ _. reflexivity.
    - reflexivity.
    - intros m' (V & F). apply HQ; auto. intros i j Hij. rewrite V by auto. cbn [orb]. destruct Hij as (Hi & Hj).
      replace (tri 0 n i j) with (if up then i <=? j else j <=? i); [reflexivity|].
      rewrite RC in Hi. rewrite CC in Hj. unfold tri. destruct up; clear - Hi Hj; Lia.lia.
  Qed.

  Lemma opv_all : opv t P X 0 n = X /\ opv t P Y 0 n = Y /\ subm C 0 0 n n = C.
  Proof.
    split; [|split].
    - unfold opv. destruct t; destruct SX as (<- & <-); apply sub_id.
    - unfold opv. destruct t; destruct SY as (<- & <-); apply sub_id.
    - rewrite <- RC at 1. rewrite <- CC. apply sub_id.
  Qed.
End S.
