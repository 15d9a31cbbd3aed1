(* PBlas2.v: matrix-vector multiplication and rank-1 update. *)
From Coq Require Import ZArith Lia Ring Bool ZifyBool.
From Verif Require Import Mem MView SpecView PView PSub Hoare MFlags MCopy PUpd PCopy
  MNum SpecNum MBlas1 PSum PBlas1 MElem PElem MBlas2 PMvec.
Local Open Scope Z_scope.
Local Open Scope prog_scope.

Lemma vinc_pos : forall x, wf x -> 0 < vinc x.
Proof. intros x (H1 & H2 & H3). unfold vinc. destruct (rows x =? 1) eqn:E; lia. Qed.

Lemma ad_vad : forall x k, ad (elems x) (vinc x) k = vad x k.
Proof. intros. unfold ad. apply vad_eq. Qed.

Lemma sub_mad : forall A r c nr nc i j,
  mad (armas_submatrix_unsafe A r c nr nc) (i, j) = mad A (r + i, c + j).
Proof. intros. unfold mad, armas_submatrix_unsafe, armas_make. cbn -[Z.mul Z.add]. lia. Qed.

Lemma subv_vad : forall x n len k, isvec x -> wf x -> 0 <= n -> 0 <= len -> n + len <= vlen x -> 0 <= k < len ->
  vad (armas_subvector_unsafe x n len) k = vad x (n + k).
Proof.
  intros x n len k Hv Hw Hn Hl Hb Hk.
  destruct (subvec_unsafe_vshows x n len) as (_ & _ & H & _); auto.
  specialize (H Z (fun a => a) k Hk). rewrite !velt_vad in H. exact H.
Qed.

Lemma vec_part_eq : forall x n, isvec x -> wf x -> 0 <= n <= vlen x ->
  vec_partition_2x1 x n PTop = (armas_subvector_unsafe x 0 n, armas_subvector_unsafe x n (vlen x - n)).
Proof.
  intros x n Hv Hw Hn. unfold vec_partition_2x1. change (armas_size x) with (vlen x). cbv zeta.
  destruct (n >? vlen x) eqn:E; [lia|]. reflexivity.
Qed.

(* everything one needs to know about a sub-vector *)
Lemma subv_facts : forall L x n len, isvec x -> wf x -> allocated L x -> 0 <= n -> 0 <= len ->
  n + len <= vlen x ->
  let v := armas_subvector_unsafe x n len in
  isvec v /\ wf v /\ allocated L v /\ vlen v = len /\ (forall a, cell v a -> cell x a).
Proof.
  intros L x n len Vx Wx Lx Hn Hl Hnl v.
  destruct (subvec_unsafe_vshows x n len Vx Wx Hn Hl Hnl) as (H1 & H2 & H3 & H4 & H5).
  fold v in H1, H2, H3, H4, H5.
  assert (C : forall a, cell v a -> cell x a).
  { intros a Ha. apply H4 in Ha as (k & Hk & ->). apply vec_cell; auto. exists k. split; auto. lia. }
  repeat split; auto; try apply H5. intros a Ha. apply Lx. auto.
Qed.

Lemma subm_facts : forall L A r c nr nc, wf A -> allocated L A -> 0 <= r -> 0 <= c -> 0 <= nr -> 0 <= nc ->
  r + nr <= rows A -> c + nc <= cols A ->
  let B := armas_submatrix_unsafe A r c nr nc in
  wf B /\ allocated L B /\ rows B = nr /\ cols B = nc /\ (forall a, cell B a -> cell A a).
Proof.
  intros L A r c nr nc WA LA H1 H2 H3 H4 H5 H6 B.
  destruct (sub_shows A r c nr nc) as (R & C & _ & D & W); auto. repeat split; auto; try apply W.
  intros a Ha. apply LA. auto.
Qed.

Lemma disj_cells : forall A B A' B', disjoint A B -> (forall a, cell A' a -> cell A a) ->
  (forall a, cell B' a -> cell B a) -> disjoint A' B'.
Proof. intros A B A' B' H H1 H2 a Ha Hb. apply (H a); auto. Qed.

Section P.
  Context {T : Type} (K : num T).
  Implicit Types (m : Z -> T) (L : Z -> bool).
  Local Notation "x +' y" := (add K x y) (at level 50, left associativity).
  Local Notation "x *' y" := (mul K x y) (at level 40, left associativity).
  Hypothesis HR : is_ring K.
  Let HR' : ring_theory (zero K) (one K) (add K) (mul K) (sub K) (opp K) eq := HR.
  Add Ring Kring : HR'.

  Definition opm (tr : bool) m A i j : T := if tr then elt m A j i else elt m A i j.

  (* value of Y after adding alpha times the product with the first n elements of X *)
  Definition gval (h : T -> T -> T) (tr : bool) m Y alpha A X n k : T :=
    m (vad Y k) +' alpha *' vsum K n (fun j => h (opm tr m A k j) (m (vad X j))).

  Section Unb.
    Variables (L : Z -> bool) (Y A X : view).
    Hypotheses (VY : isvec Y) (WY : wf Y) (LY : allocated L Y).
    Hypotheses (VX : isvec X) (WX : wf X) (LX : allocated L X).
    Hypotheses (WA : wf A) (LA : allocated L A).
    Hypotheses (DA : disjoint Y A) (DX : disjoint Y X).

    Lemma rd_y : forall q, 0 <= q < vlen Y -> L (ad (elems Y) (vinc Y) q) = true.
    Proof. intros q Hq. rewrite ad_vad. apply LY, vad_cell; auto. Qed.

    Lemma rd_x : forall q, 0 <= q < vlen X -> L (elems X + q * vinc X) = true.
    Proof. intros q Hq. rewrite vad_eq. apply LX, vad_cell; auto. Qed.

    Lemma rd_a : forall i j, pos A i j -> L (colp A j + i) = true.
    Proof. intros i j Hp. apply LA. apply (mad_cell A i j Hp). Qed.

    Lemma off_a : forall i j, pos A i j -> off L (elems Y) (vinc Y) (vlen Y) (colp A j + i).
    Proof.
      intros i j Hp. split; [apply rd_a; auto|]. intros q Hq E. rewrite ad_vad in E.
      apply (DA (vad Y q)); [apply vad_cell; auto|]. rewrite <- E. apply (mad_cell A i j Hp).
    Qed.

    Lemma upd_a : forall m0 F S m i j, upd m0 (vad Y) F S m -> (forall q, S q -> vdom Y q) -> pos A i j ->
      m (mad A (i, j)) = m0 (mad A (i, j)).
    Proof. intros. eapply vupd_disj with (B := A); eauto. apply mad_cell; auto. Qed.

    Lemma upd_x : forall m0 F S m k, upd m0 (vad Y) F S m -> (forall q, S q -> vdom Y q) -> vdom X k ->
      m (vad X k) = m0 (vad X k).
    Proof. intros. eapply vupd_disj with (B := X); eauto. apply vad_cell; auto. Qed.

    Lemma gemv_axpys_wp : forall g alpha m (Q : unit -> (Z -> T) -> Prop),
      vlen Y = rows A -> vlen X = cols A ->
      (forall m', upd m (vad Y) (gval (fun a x => g a *' g x) false m Y alpha A X (cols A)) (vdom Y) m' -> Q tt m') ->
      wp (gemv_axpys K g (elems Y + 0 * vinc Y) (rows A) Y alpha A X) L m Q.
    Proof.
      intros g alpha m Q EY EX HQ. unfold gemv_axpys.
      pose proof WA as (HrA & HcA & HsA). pose proof (vinc_pos Y WY) as Hi.
      replace (elems Y + 0 * vinc Y) with (elems Y) by lia.
      set (h := fun a x => g a *' g x) in *.
      assert (Hoff : forall j, 0 <= j < cols A -> forall k, 0 <= k < rows A -> off L (elems Y) (vinc Y) (rows A) (colp A j + k)).
      { intros j Hj k Hk. rewrite <- EY. apply off_a. split; lia. }
      apply wp_unroll421 with (I := fun j m' => upd m (vad Y) (gval h false m Y alpha A X j) (vdom Y) m'); auto.
      - eapply upd_weaken; [apply upd_same|]. intros q Hq. unfold gval. rewrite vsum_0 by lia. ring.
      - intros j m' Hj Hj4 Hu.
        eapply wp_conseq; [apply (vmult4axpy_wp K L (elems Y) (vinc Y) (rows A) m' Hi)|]; auto;
          try (apply Hoff; lia); try (rewrite <- EY; apply rd_y); try (rewrite !vad_eq; apply rd_x; lia).
        + apply rd_x; lia.
        + replace (elems X + j * vinc X + vinc X) with (elems X + (j + 1) * vinc X) by lia. apply rd_x; lia.
        + replace (elems X + j * vinc X + 2 * vinc X) with (elems X + (j + 2) * vinc X) by lia. apply rd_x; lia.
        + replace (elems X + j * vinc X + 3 * vinc X) with (elems X + (j + 3) * vinc X) by lia. apply rd_x; lia.
        + cbv beta. intros _ m2 Hu2.
          eapply upd_seq; [exact Hu|]. eapply upd_ext; [|eapply upd_D; [|eapply upd_weaken; [exact Hu2|]]].
          * intros q; cbv beta. unfold vdom. rewrite EY. reflexivity.
          * intros q _. apply ad_vad.
          * intros q Hq. cbv beta in Hq |- *. rewrite ad_vad.
            replace (elems X + j * vinc X + vinc X) with (elems X + (j + 1) * vinc X) by lia.
            replace (elems X + j * vinc X + 2 * vinc X) with (elems X + (j + 2) * vinc X) by lia.
            replace (elems X + j * vinc X + 3 * vinc X) with (elems X + (j + 3) * vinc X) by lia.
            rewrite !vad_eq.
            rewrite !(upd_x _ _ _ _ _ Hu) by (auto; unfold vdom; lia).
            change (colp A (j + 0) + q) with (mad A (q, j + 0)). change (colp A (j + 1) + q) with (mad A (q, j + 1)).
            change (colp A (j + 2) + q) with (mad A (q, j + 2)). change (colp A (j + 3) + q) with (mad A (q, j + 3)).
            rewrite !(upd_a _ _ _ _ _ _ Hu) by (auto; split; lia).
            rewrite (upd_new _ _ _ _ _ q Hu) by (unfold vdom; lia).
            unfold gval, opm. replace (j + 4) with (j + 1 + 1 + 1 + 1) by lia. rewrite !vsum_S by lia.
            replace (j + 1 + 1 + 1) with (j + 3) by lia. replace (j + 1 + 1) with (j + 2) by lia.
            rewrite !elt_mad. rewrite !Z.add_0_r. unfold h. ring.
      - intros j m' Hj Hj2 Hu.
        eapply wp_conseq; [apply (vmult2axpy_wp K L (elems Y) (vinc Y) (rows A) m' Hi)|]; auto;
          try (apply Hoff; lia); try (rewrite <- EY; apply rd_y).
        + apply rd_x; lia.
        + replace (elems X + j * vinc X + vinc X) with (elems X + (j + 1) * vinc X) by lia. apply rd_x; lia.
        + cbv beta. intros _ m2 Hu2.
          eapply upd_seq; [exact Hu|]. eapply upd_ext; [|eapply upd_D; [|eapply upd_weaken; [exact Hu2|]]].
          * intros q; cbv beta. unfold vdom. rewrite EY. reflexivity.
          * intros q _. apply ad_vad.
          * intros q Hq. cbv beta in Hq |- *. rewrite ad_vad.
            replace (elems X + j * vinc X + vinc X) with (elems X + (j + 1) * vinc X) by lia.
            rewrite !vad_eq.
            rewrite !(upd_x _ _ _ _ _ Hu) by (auto; unfold vdom; lia).
            change (colp A (j + 0) + q) with (mad A (q, j + 0)). change (colp A (j + 1) + q) with (mad A (q, j + 1)).
            rewrite !(upd_a _ _ _ _ _ _ Hu) by (auto; split; lia).
            rewrite (upd_new _ _ _ _ _ q Hu) by (unfold vdom; lia).
            unfold gval, opm. replace (j + 2) with (j + 1 + 1) by lia. rewrite !vsum_S by lia.
            rewrite !elt_mad. rewrite !Z.add_0_r. unfold h. ring.
      - intros j m' Hj Hu.
        eapply wp_conseq; [apply (vmult1axpy_wp K L (elems Y) (vinc Y) (rows A) m' Hi)|]; auto;
          try (apply Hoff; lia); try (rewrite <- EY; apply rd_y).
        + apply rd_x; lia.
        + cbv beta. intros _ m2 Hu2.
          eapply upd_seq; [exact Hu|]. eapply upd_ext; [|eapply upd_D; [|eapply upd_weaken; [exact Hu2|]]].
          * intros q; cbv beta. unfold vdom. rewrite EY. reflexivity.
          * intros q _. apply ad_vad.
          * intros q Hq. cbv beta in Hq |- *. rewrite ad_vad. rewrite !vad_eq.
            rewrite !(upd_x _ _ _ _ _ Hu) by (auto; unfold vdom; lia).
            change (colp A (j + 0) + q) with (mad A (q, j + 0)).
            rewrite !(upd_a _ _ _ _ _ _ Hu) by (auto; split; lia).
            rewrite (upd_new _ _ _ _ _ q Hu) by (unfold vdom; lia).
            unfold gval, opm. rewrite !vsum_S by lia.
            rewrite !elt_mad. rewrite !Z.add_0_r. unfold h. ring.
    Qed.

    (* transposed: elements below i are done *)
    Lemma gemv_dots_wp : forall h1 h alpha m (Q : unit -> (Z -> T) -> Prop),
      (forall a b, h1 a b = h a b) ->
      vlen Y = cols A -> vlen X = rows A ->
      (forall m', upd m (vad Y) (gval h true m Y alpha A X (rows A)) (vdom Y) m' -> Q tt m') ->
      wp (gemv_dots K h1 h Y alpha A X) L m Q.
    Proof.
      intros h1 h alpha m Q Eh EY EX HQ. unfold gemv_dots.
      pose proof WA as (HrA & HcA & HsA). pose proof (vinc_pos Y WY) as Hi.
      replace (elems X + 0 * vinc X) with (elems X) by lia.
      set (F := gval h true m Y alpha A X (rows A)) in *.
      (* the values one kernel call adds *)
      assert (Hstep : forall i n m' m2 (hh : T -> T -> T) (a : Z -> Z), (forall u v, hh u v = h u v) -> 0 <= i -> 0 < n -> i + n <= cols A ->
        (forall k, 0 <= k < n -> a k = colp A (i + k)) ->
        upd m (vad Y) F (fun q => 0 <= q < i) m' ->
        upd m' (ad (elems Y + i * vinc Y) (vinc Y)) (fun k => m' (ad (elems Y + i * vinc Y) (vinc Y) k) +'
          vsum K (rows A) (fun q => hh (m' (a k + q)) (m' (elems X + q * vinc X))) *' alpha) (fun k => 0 <= k < n) m2 ->
        upd m (vad Y) F (fun q => 0 <= q < i + n) m2).
      { intros i n m' m2 hh a Ehh H0 Hn Hin Ea Hu Hu2.
        assert (Hu3 : upd m' (vad Y) F (fun q => i <= q < i + n) m2).
        { eapply upd_reindex; [| |exact Hu2].
          - cbv beta. intros q Hq. exists (i + q). split; [lia|]. rewrite <- ad_vad. unfold ad. lia.
          - cbv beta. intros r Hr. exists (r - i). split; [lia|].
            assert (E : ad (elems Y + i * vinc Y) (vinc Y) (r - i) = vad Y r) by (rewrite <- ad_vad; unfold ad; lia).
            split; [exact E|]. rewrite E.
            rewrite (vupd_old _ _ _ _ _ r Hu) by (auto; unfold vdom; cbv beta; intros; lia).
            unfold F, gval. f_equal. rewrite (Rmul_comm HR). f_equal. apply vsum_ext. intros k Hk.
            rewrite Ehh, Ea by lia. replace (i + (r - i)) with r by lia.
            rewrite vad_eq. change (colp A r + k) with (mad A (k, r)).
            rewrite (upd_a _ _ _ _ _ _ Hu) by (try (split; lia); unfold vdom; cbv beta; intros; lia).
            rewrite (upd_x _ _ _ _ _ Hu) by (unfold vdom; cbv beta; intros; lia). reflexivity. }
        eapply upd_seq_gen with (U := vdom Y); [apply vad_inj; auto| | | |exact Hu|exact Hu3| | |]; cbv beta;
          try (intros; unfold vdom; lia); auto.
        intros q. destruct (Z_le_dec i q), (Z_lt_dec q (i + n)); [left|right|right|right]; lia. }
      apply wp_unroll421 with (I := fun i m' => upd m (vad Y) F (fun q => 0 <= q < i) m'); auto.
      - apply upd_nil. intros; lia.
      - intros i m' H0 H4 Hu.
        eapply wp_conseq; [apply (vmult4dot_wp K HR L (elems Y + i * vinc Y) (vinc Y) (elems X) (vinc X) (rows A) m' Hi)|];
          auto; try (intros k Hk; apply rd_a; split; lia).
        + intros q Hq. apply rd_x. lia.
        + intros q Hq. replace (ad (elems Y + i * vinc Y) (vinc Y) q) with (ad (elems Y) (vinc Y) (i + q)) by (unfold ad; lia).
          apply rd_y; lia.
        + cbv beta. intros _ m2 Hu2. eapply Hstep; [| | | | |exact Hu|exact Hu2]; auto; try lia.
          cbv beta. intros k Hk. assert (k = 0 \/ k = 1 \/ k = 2 \/ k = 3) as [->|[->|[->| ->]]] by lia; reflexivity.
      - intros i m' H0 H4 Hu.
        eapply wp_conseq; [apply (vmult2dot_wp K HR L (elems Y + i * vinc Y) (vinc Y) (elems X) (vinc X) (rows A) m' Hi)|];
          auto; try (intros k Hk; apply rd_a; split; lia).
        + intros q Hq. apply rd_x. lia.
        + intros q Hq. replace (ad (elems Y + i * vinc Y) (vinc Y) q) with (ad (elems Y) (vinc Y) (i + q)) by (unfold ad; lia).
          apply rd_y; lia.
        + cbv beta. intros _ m2 Hu2. eapply Hstep; [| | | | |exact Hu|exact Hu2]; auto; try lia.
          cbv beta. intros k Hk. assert (k = 0 \/ k = 1) as [->| ->] by lia; reflexivity.
      - intros i m' H0 Hu.
        eapply wp_conseq; [apply (vmult1dot_wp K HR L (elems Y + i * vinc Y) (vinc Y) (elems X) (vinc X) (rows A) m' Hi)|];
          auto; try (intros k Hk; apply rd_a; split; lia).
        + intros q Hq. apply rd_x. lia.
        + apply (rd_y i); lia.
        + cbv beta. intros _ m2 Hu2. eapply Hstep; [| | | | |exact Hu|exact Hu2]; auto; try lia.
          cbv beta. intros k Hk. assert (k = 0) as -> by lia; reflexivity.
      - intros m' Hu. apply HQ. rewrite <- EY in Hu. exact Hu.
    Qed.

    Lemma gemv_unb_wp : forall flags alpha m (Q : unit -> (Z -> T) -> Prop),
      has flags ARMAS_ABSA = false ->
      (if has flags ARMAS_TRANS then vlen Y = cols A /\ vlen X = rows A else vlen Y = rows A /\ vlen X = cols A) ->
      (forall m', upd m (vad Y) (gval (mul K) (has flags ARMAS_TRANS) m Y alpha A X (vlen X)) (vdom Y) m' -> Q tt m') ->
      wp (gemv_unb K Y alpha A X flags) L m Q.
    Proof.
      intros flags alpha m Q Ha Hs HQ. unfold gemv_unb. rewrite Ha.
      change ARMAS_TRANSA with ARMAS_TRANS. rewrite orb_diag.
      destruct (has flags ARMAS_TRANS).
      - destruct Hs as (H1 & H2). apply gemv_dots_wp; auto. rewrite <- H2. auto.
      - destruct Hs as (H1 & H2). apply gemv_axpys_wp; auto. rewrite <- H2. auto.
    Qed.
  End Unb.

  Lemma quot2 : forall n, 0 <= n -> Z.quot n 2 = n / 2 /\ 0 <= n / 2 <= n /\ (2 <= n -> 1 <= n / 2 < n).
  Proof.
    intros n H. rewrite Z.quot_div_nonneg by lia.
    pose proof (Z.div_mod n 2 ltac:(lia)). pose proof (Z.mod_pos_bound n 2 ltac:(lia)). lia.
  Qed.

  Definition gsize (tr : bool) Y A X : Prop :=
    if tr then vlen Y = cols A /\ vlen X = rows A else vlen Y = rows A /\ vlen X = cols A.

  Lemma gemv_recursive_wp : forall flags alpha minsz L, has flags ARMAS_ABSA = false ->
    minsz = 0 \/ 2 <= minsz -> forall fuel Y A X m (Q : unit -> (Z -> T) -> Prop),
    isvec Y -> wf Y -> allocated L Y -> isvec X -> wf X -> allocated L X -> wf A -> allocated L A ->
    disjoint Y A -> disjoint Y X -> vlen Y < Z.of_nat fuel ->
    gsize (has flags ARMAS_TRANS) Y A X ->
    (forall m', upd m (vad Y) (gval (mul K) (has flags ARMAS_TRANS) m Y alpha A X (vlen X)) (vdom Y) m' -> Q tt m') ->
    wp (gemv_recursive K fuel Y alpha A X flags minsz) L m Q.
  Proof.
    intros flags alpha minsz L Habs Hmin. induction fuel as [|fuel IH];
      intros Y A X m Q VY WY LY VX WX LX WA LA DA DX Hf Hs HQ.
    { pose proof (vlen_nonneg Y WY). lia. }
    cbn [gemv_recursive]. change (armas_size Y) with (vlen Y). change (armas_size X) with (vlen X).
    apply wp_if; intros E.
    { apply gemv_unb_wp; auto. }
    pose proof WA as (HrA & HcA & HsA).
    assert (H2 : 2 <= vlen Y /\ 2 <= vlen X) by lia. destruct H2 as (HY2 & HX2).
    destruct (quot2 (vlen Y) ltac:(lia)) as (EqY & _ & HnY). specialize (HnY HY2).
    destruct (quot2 (vlen X) ltac:(lia)) as (EqX & _ & HnX). specialize (HnX HX2).
    set (tr := has flags ARMAS_TRANS) in *.
    set (n := vlen Y / 2) in *. set (p := vlen X / 2) in *.
    rewrite EqY, EqX. cbv zeta. rewrite !vec_part_eq by (auto; lia).
    (* one block *)
    assert (Hblk : forall r nr c nc m (Q : unit -> (Z -> T) -> Prop), 0 <= r -> 0 <= nr < vlen Y -> r + nr <= vlen Y ->
      0 <= c -> 0 <= nc -> c + nc <= vlen X ->
      (forall m', upd m (vad Y) (fun q => m (vad Y q) +' alpha *' vsum K nc (fun j => opm tr m A q (c + j) *' m (vad X (c + j))))
          (fun q => r <= q < r + nr) m' -> Q tt m') ->
      wp (gemv_recursive K fuel (armas_subvector_unsafe Y r nr) alpha
           (if tr then armas_submatrix_unsafe A c r nc nr else armas_submatrix_unsafe A r c nr nc)
           (armas_subvector_unsafe X c nc) flags minsz) L m Q).
    { clear HQ Q m. intros r nr c nc m Q Hr Hnr Hrn Hc Hnc Hcn HQ.
      destruct (subv_facts L Y r nr) as (A1 & A2 & A3 & A4 & A5); auto; try lia.
      destruct (subv_facts L X c nc) as (B1 & B2 & B3 & B4 & B5); auto; try lia.
      assert (HA' : let A' := (if tr then armas_submatrix_unsafe A c r nc nr else armas_submatrix_unsafe A r c nr nc) in
        wf A' /\ allocated L A' /\ (forall a, cell A' a -> cell A a) /\
        gsize tr (armas_subvector_unsafe Y r nr) A' (armas_subvector_unsafe X c nc) /\
        forall i j, opm tr m A' i j = opm tr m A (r + i) (c + j)).
      { unfold gsize, opm in *. destruct tr; cbv zeta.
        - destruct (subm_facts L A c r nc nr) as (C1 & C2 & C3 & C4 & C5); auto; try lia.
          repeat split; auto; try lia; try apply C1; try congruence.
          intros i j. rewrite !elt_mad, sub_mad. reflexivity.
        - destruct (subm_facts L A r c nr nc) as (C1 & C2 & C3 & C4 & C5); auto; try lia.
          repeat split; auto; try lia; try apply C1; try congruence.
          intros i j. rewrite !elt_mad, sub_mad. reflexivity. }
      cbv zeta in HA'. destruct HA' as (C1 & C2 & C3 & C4 & C5).
      apply IH; auto; try lia.
      - eapply disj_cells; [exact DA|auto|auto].
      - eapply disj_cells; [exact DX|auto|auto].
      - intros m' Hu. apply HQ. rewrite B4 in Hu. eapply upd_reindex; [| |exact Hu].
        + intros q Hq. unfold vdom in Hq. rewrite A4 in Hq. exists (r + q). split; [lia|]. apply subv_vad; auto; lia.
        + cbv beta. intros q Hq. exists (q - r). unfold vdom. rewrite A4. split; [lia|].
          rewrite subv_vad by (auto; lia). replace (r + (q - r)) with q by lia. split; auto.
          unfold gval. rewrite subv_vad by (auto; lia). replace (r + (q - r)) with q by lia.
          f_equal. f_equal. apply vsum_ext. intros k Hk. rewrite C5, subv_vad by (auto; lia).
          replace (r + (q - r)) with q by lia. reflexivity. }
    (* both blocks of a row of blocks *)
    assert (Hrow : forall r nr m m1 m2, 0 <= r -> 0 <= nr < vlen Y -> r + nr <= vlen Y ->
      upd m (vad Y) (fun q => m (vad Y q) +' alpha *' vsum K p (fun j => opm tr m A q (0 + j) *' m (vad X (0 + j))))
          (fun q => r <= q < r + nr) m1 ->
      upd m1 (vad Y) (fun q => m1 (vad Y q) +' alpha *' vsum K (vlen X - p) (fun j => opm tr m1 A q (p + j) *' m1 (vad X (p + j))))
          (fun q => r <= q < r + nr) m2 ->
      upd m (vad Y) (gval (mul K) tr m Y alpha A X (vlen X)) (fun q => r <= q < r + nr) m2).
    { clear HQ Q m. intros r nr m m1 m2 Hr Hnr Hrn Hu1 Hu2. eapply upd_seq; [exact Hu1|].
      eapply upd_weaken; [exact Hu2|]. cbv beta. intros q Hq. rewrite (upd_new _ _ _ _ _ q Hu1) by auto.
      unfold gval. replace (vlen X) with (p + (vlen X - p)) at 2 by lia. rewrite vsum_split by (auto; lia).
      rewrite (vsum_ext K (vlen X - p) (fun j => opm tr m1 A q (p + j) *' m1 (vad X (p + j)))
                 (fun j => opm tr m A q (p + j) *' m (vad X (p + j)))).
      - cbn [Z.add]. ring.
      - intros j Hj. rewrite (upd_x Y X VY WY VX WX DX _ _ _ _ _ Hu1) by (unfold vdom; cbv beta; auto; intros; lia).
        f_equal. unfold gsize, opm in *. rewrite !elt_mad.
        destruct tr; rewrite (upd_a Y A VY WY DA _ _ _ _ _ _ Hu1) by (unfold vdom; cbv beta; auto; intros; try split; lia); reflexivity. }
    assert (Hrun : wp (gemv_recursive K fuel (armas_subvector_unsafe Y 0 n) alpha
           (if tr then armas_submatrix_unsafe A 0 0 p n else armas_submatrix_unsafe A 0 0 n p) (armas_subvector_unsafe X 0 p) flags minsz ;;
         gemv_recursive K fuel (armas_subvector_unsafe Y 0 n) alpha
           (if tr then armas_submatrix_unsafe A p 0 (vlen X - p) n else armas_submatrix_unsafe A 0 p n (vlen X - p)) (armas_subvector_unsafe X p (vlen X - p)) flags minsz ;;
         gemv_recursive K fuel (armas_subvector_unsafe Y n (vlen Y - n)) alpha
           (if tr then armas_submatrix_unsafe A 0 n p (vlen Y - n) else armas_submatrix_unsafe A n 0 (vlen Y - n) p) (armas_subvector_unsafe X 0 p) flags minsz ;;
         gemv_recursive K fuel (armas_subvector_unsafe Y n (vlen Y - n)) alpha
           (if tr then armas_submatrix_unsafe A p n (vlen X - p) (vlen Y - n) else armas_submatrix_unsafe A n p (vlen Y - n) (vlen X - p)) (armas_subvector_unsafe X p (vlen X - p)) flags minsz) L m Q).
    { wbind. apply Hblk; try lia. intros m1 Hu1. wbind. apply Hblk; try lia. intros m2 Hu2.
      wbind. apply Hblk; try lia. intros m3 Hu3. apply Hblk; try lia. intros m4 Hu4. apply HQ.
      assert (U1 := Hrow 0 n _ _ _ ltac:(lia) ltac:(lia) ltac:(lia) Hu1 Hu2).
      assert (U2 := Hrow n (vlen Y - n) _ _ _ ltac:(lia) ltac:(lia) ltac:(lia) Hu3 Hu4).
      eapply upd_seq_gen with (U := vdom Y) (H := gval (mul K) tr m Y alpha A X (vlen X));
        [apply vad_inj; auto| | | |exact U1|exact U2| | |]; cbv beta; unfold vdom; try (intros; lia); auto.
      - intros q. destruct (Z_le_dec n q), (Z_lt_dec q (n + (vlen Y - n))); [left|right|right|right]; lia.
      - intros q Hq. unfold gval.
        rewrite (vupd_old _ _ _ _ _ q U1) by (auto; unfold vdom; cbv beta; intros; lia). f_equal. f_equal.
        apply vsum_ext. intros j Hj.
        rewrite (upd_x Y X VY WY VX WX DX _ _ _ _ _ U1) by (unfold vdom; cbv beta; auto; intros; lia).
        f_equal. unfold gsize, opm in *. rewrite !elt_mad.
        destruct tr; rewrite (upd_a Y A VY WY DA _ _ _ _ _ _ U1) by (unfold vdom; cbv beta; auto; intros; try split; lia); reflexivity. }
    unfold gsize in Hs. unfold mat_partition_2x2. cbn [ATL ATR ABL ABR].
    destruct tr eqn:Etr; destruct Hs as (Hs1 & Hs2).
    - replace (Z.quot (rows A) 2) with p by (rewrite <- Hs2; lia). replace (Z.quot (cols A) 2) with n by (rewrite <- Hs1; lia).
      rewrite <- Hs1, <- Hs2. eapply wp_eqM; [|exact Hrun].
      apply eqM_bind; [apply eqM_refl|]. intros _. apply bind_assoc.
    - replace (Z.quot (rows A) 2) with n by (rewrite <- Hs1; lia). replace (Z.quot (cols A) 2) with p by (rewrite <- Hs2; lia).
      rewrite <- Hs1, <- Hs2. eapply wp_eqM; [|exact Hrun].
      apply eqM_bind; [apply eqM_refl|]. intros _. apply bind_assoc.
  Qed.

  Lemma mvmult_spec : forall fuel blas2min optflags L m beta y alpha A x flags,
    eqb_ok K -> has flags ARMAS_ABSA = false ->
    blas2min = 0 \/ 2 <= blas2min \/ has optflags ARMAS_ONAIVE = true -> vlen y < Z.of_nat fuel ->
    isvec y -> wf y -> allocated L y -> isvec x -> wf x -> allocated L x -> wf A -> allocated L A ->
    disjoint y A -> disjoint y x -> 0 < rows A -> 0 < cols A -> gsize (has flags ARMAS_TRANS) y A x ->
    exists m', armas_mvmult K fuel blas2min optflags beta y alpha A x flags L m = Some (0, m') /\
      (forall k, 0 <= k < vlen y -> velt m' y k =
         beta *' velt m y k +' alpha *' vsum K (vlen x) (fun j => opm (has flags ARMAS_TRANS) m A k j *' velt m x j)) /\
      only_changes y m m'.
  Proof.
    intros fuel blas2min optflags L m beta y alpha A x flags HE Habs Hmin Hf Vy Wy Ly Vx Wx Lx WA LA DA DX HrA HcA Hs.
    assert (W : wp (armas_mvmult K fuel blas2min optflags beta y alpha A x flags) L m (fun r m' => r = 0 /\
      (forall k, 0 <= k < vlen y -> velt m' y k =
         beta *' velt m y k +' alpha *' vsum K (vlen x) (fun j => opm (has flags ARMAS_TRANS) m A k j *' velt m x j)) /\
      only_changes y m m')).
    { unfold armas_mvmult. change (armas_size x) with (vlen x). change (armas_size y) with (vlen y).
      unfold gsize in Hs.
      replace (armas_size A =? 0) with false by (unfold armas_size; nia).
      replace (vlen x =? 0) with false by (destruct (has flags ARMAS_TRANS); lia).
      replace (vlen y =? 0) with false by (destruct (has flags ARMAS_TRANS); lia). cbn [orb].
      apply isvector_isvec in Vx as E1. apply isvector_isvec in Vy as E2. rewrite E1, E2. cbn [andb negb].
      rewrite <- has_trans. cbv zeta.
      replace (if has flags ARMAS_TRANS then (cols A =? vlen y) && (rows A =? vlen x) else (rows A =? vlen y) && (cols A =? vlen x))
        with true by (destruct (has flags ARMAS_TRANS); lia). cbn [negb]. wbind.
      assert (Hg : forall m1, upd m (vad y) (fun k => beta *' m (vad y k)) (vdom y) m1 ->
        wp ((if has optflags ARMAS_ONAIVE then gemv_unb K y alpha A x flags
             else gemv_recursive K fuel y alpha A x flags blas2min) ;; ret 0) L m1 (fun r m' => r = 0 /\
          (forall k, 0 <= k < vlen y -> velt m' y k =
             beta *' velt m y k +' alpha *' vsum K (vlen x) (fun j => opm (has flags ARMAS_TRANS) m A k j *' velt m x j)) /\
          only_changes y m m')).
      { intros m1 Hu1. wbind.
        assert (Hfin : forall m', upd m1 (vad y) (gval (mul K) (has flags ARMAS_TRANS) m1 y alpha A x (vlen x)) (vdom y) m' ->
          wp (ret 0) L m' (fun r m' => r = 0 /\
          (forall k, 0 <= k < vlen y -> velt m' y k =
             beta *' velt m y k +' alpha *' vsum K (vlen x) (fun j => opm (has flags ARMAS_TRANS) m A k j *' velt m x j)) /\
          only_changes y m m')).
        { intros m' Hu2. apply wp_ret. split; [auto|]. split.
          - intros k Hk. rewrite !velt_vad. rewrite (upd_new _ _ _ _ _ k Hu2) by auto. unfold gval.
            rewrite (upd_new _ _ _ _ _ k Hu1) by auto. f_equal. f_equal. apply vsum_ext. intros j Hj.
            rewrite !velt_vad. rewrite (upd_x y x Vy Wy Vx Wx DX _ _ _ _ _ Hu1) by auto. f_equal.
            unfold opm in *. rewrite !elt_mad.
            destruct (has flags ARMAS_TRANS); rewrite (upd_a y A Vy Wy DA _ _ _ _ _ _ Hu1) by (auto; split; lia); reflexivity.
          - eapply vupd_only; [eapply upd_seq; [exact Hu1|exact Hu2]| | |]; auto. }
        apply wp_if; intros En.
        - apply gemv_unb_wp; auto.
        - apply gemv_recursive_wp; auto. destruct Hmin as [?|[?|?]]; auto. congruence. }
      apply wp_when; intros Eb.
      - unfold armas_scale_unsafe. rewrite E2. apply vec_modify_wp; auto; try (change (armas_size y) with (vlen y); lia).
        intros m1 Hu1. apply Hg. eapply upd_weaken; [exact Hu1|]. cbv beta. intros q Hq. ring.
      - apply Hg. eapply upd_weaken; [apply upd_same|]. intros q Hq.
        assert (eqb K beta (one K) = true) as Eb' by (destruct (eqb K beta (one K)); auto; discriminate).
        apply HE in Eb'. rewrite Eb'. ring. }
    destruct W as (r & m' & E & -> & H1 & H2). eauto.
  Qed.

  (* ---- rank-1 update ---- *)

  Section Ger.
    Variables (L : Z -> bool) (A X Y : view).
    Hypotheses (VY : isvec Y) (WY : wf Y) (LY : allocated L Y).
    Hypotheses (VX : isvec X) (WX : wf X) (LX : allocated L X).
    Hypotheses (WA : wf A) (LA : allocated L A).
    Hypotheses (DX : disjoint A X) (DY : disjoint A Y).
    Hypotheses (EX : rows A <= vlen X) (EY : cols A <= vlen Y).
    Variables (beta alpha : T) (m0 : Z -> T).

    Definition rval (p : Z * Z) : T :=
      beta *' m0 (mad A p) +' alpha *' (m0 (vad X (fst p)) *' m0 (vad Y (snd p))).

    Lemma ger1_wp : forall m S i c p x y0 (Q : unit -> (Z -> T) -> Prop),
      upd m0 (mad A) rval S m -> (forall q, S q -> mdom A q) -> ~ S (i, c) -> pos A i c ->
      p = mad A (i, c) -> x = vad X i -> y0 = alpha *' m0 (vad Y c) ->
      (forall m', upd m0 (mad A) rval (fun q => S q \/ (fst q = i /\ snd q = c)) m' -> Q tt m') ->
      wp (ger1 K beta p x y0) L m Q.
    Proof.
      intros m S i c p x y0 Q Hu HS Hn Hp -> -> -> HQ. unfold ger1.
      wbind. eapply wp_rd_m; [exact LA|exact Hp|reflexivity|]. cbv beta.
      assert (Hi : vdom X i) by (destruct Hp; unfold vdom; lia).
      wbind. eapply wp_rd_v; [exact VX|exact WX|exact LX|exact Hi|reflexivity|]. cbv beta.
      eapply wp_wr_m; [exact Hu|exact WA|exact LA|exact HS|exact Hp|reflexivity| |exact HQ].
      rewrite (mupd_old _ _ _ _ _ _ _ Hu) by auto.
      rewrite (mupd_disj _ _ _ _ _ X _ Hu) by (auto; apply vad_cell; auto).
      unfold rval. cbn [fst snd]. ring.
    Qed.

    Lemma rd_Y0 : forall j n m, 0 <= j -> 0 < n -> j + n <= vlen Y -> forall l q (Q : T -> (Z -> T) -> Prop), 0 <= l < n ->
      q = elems (armas_subvector_unsafe Y j n) + l * vinc (armas_subvector_unsafe Y j n) ->
      Q (m (vad Y (j + l))) m -> wp (rd q) L m Q.
    Proof.
      intros j n m Hj Hn Hjn l q Q Hl -> HQ. rewrite vad_eq, subv_vad by (auto; lia).
      apply wp_rd; auto. apply LY, vad_cell; auto. unfold vdom; lia.
    Qed.

    Lemma upd_Y : forall S m k, upd m0 (mad A) rval S m -> (forall q, S q -> mdom A q) -> vdom Y k ->
      m (vad Y k) = m0 (vad Y k).
    Proof. intros S m k Hu HS Hk. eapply mupd_disj; [exact Hu|exact HS|exact DY|]. apply vad_cell; auto. Qed.

    Lemma update_ger_unb_wp : forall (Q : unit -> (Z -> T) -> Prop),
      (forall m', upd m0 (mad A) rval (mdom A) m' -> Q tt m') ->
      wp (update_ger_unb K beta A alpha X Y) L m0 Q.
    Proof.
      intros Q HQ. unfold update_ger_unb. pose proof WA as (HrA & HcA & HsA).
      apply wp_unroll4c with (I := fun j m => upd m0 (mad A) rval (fun p => mdom A p /\ snd p < j) m); auto.
      - apply upd_nil. intros [i j] ((_ & ?) & ?); cbn in *; lia.
      - intros j m Hj Hj3 Hu. unfold update4axpy. set (Y0 := armas_subvector_unsafe Y j 4).
        wbind. apply (rd_Y0 j 4 m ltac:(lia) ltac:(lia) ltac:(lia) 0); [lia|unfold Y0; lia|]. cbv zeta.
        wbind. apply (rd_Y0 j 4 m ltac:(lia) ltac:(lia) ltac:(lia) 1); [lia|unfold Y0; lia|]. cbv zeta.
        wbind. apply (rd_Y0 j 4 m ltac:(lia) ltac:(lia) ltac:(lia) 2); [lia|unfold Y0; lia|]. cbv zeta.
        wbind. apply (rd_Y0 j 4 m ltac:(lia) ltac:(lia) ltac:(lia) 3); [lia|unfold Y0; lia|]. cbv zeta.
        rewrite !(upd_Y _ _ _ Hu) by (try (intros q Hq; apply Hq); unfold vdom; lia). clear Y0.
        unroll4u (fun i m => upd m0 (mad A) rval (fun p => mdom A p /\ (snd p < j \/ snd p < j + 4 /\ fst p < i)) m); auto.
        + eapply upd_ext; [|exact Hu]. intros [a b]; unfold mdom, pos; cbn; lia.
        + clear m Hu. intros i m Hi Hu. cbn [armas_submatrix_unsafe armas_make elems step].
          wbind. eapply ger1_wp with (i := i) (c := j + 0); [exact Hu|intros q Hq; apply Hq|cbn; lia|split; lia|unfold mad; cbn [fst snd elems step]; lia|apply vad_eq|reflexivity|].
          clear m Hu; intros m Hu.
          wbind. eapply ger1_wp with (i := i) (c := j + 1); [exact Hu|unfold mdom, pos; cbn; lia|cbn; lia|split; lia|unfold mad; cbn [fst snd elems step]; lia|apply vad_eq|reflexivity|].
          clear m Hu; intros m Hu.
          wbind. eapply ger1_wp with (i := i) (c := j + 2); [exact Hu|unfold mdom, pos; cbn; lia|cbn; lia|split; lia|unfold mad; cbn [fst snd elems step]; lia|apply vad_eq|reflexivity|].
          clear m Hu; intros m Hu.
          eapply ger1_wp with (i := i) (c := j + 3); [exact Hu|unfold mdom, pos; cbn; lia|cbn; lia|split; lia|unfold mad; cbn [fst snd elems step]; lia|apply vad_eq|reflexivity|].
          clear m Hu; intros m Hu.
          eapply upd_ext; [|exact Hu]. intros [a b]; unfold mdom, pos; cbn; lia.
        + clear m Hu. intros m Hu. eapply upd_ext; [|exact Hu]. intros [a b]; unfold mdom, pos; cbn; lia.
      - intros j m Hj Hu. unfold update1axpy. set (Y0 := armas_subvector_unsafe Y j 1).
        wbind. apply (rd_Y0 j 1 m ltac:(lia) ltac:(lia) ltac:(lia) 0); [lia|unfold Y0; lia|]. cbv zeta.
        rewrite !(upd_Y _ _ _ Hu) by (try (intros q Hq; apply Hq); unfold vdom; lia). clear Y0.
        unroll4u (fun i m => upd m0 (mad A) rval (fun p => mdom A p /\ (snd p < j \/ snd p < j + 1 /\ fst p < i)) m); auto.
        + eapply upd_ext; [|exact Hu]. intros [a b]; unfold mdom, pos; cbn; lia.
        + clear m Hu. intros i m Hi Hu. cbn [armas_submatrix_unsafe armas_make elems step].
          eapply ger1_wp with (i := i) (c := j + 0); [exact Hu|intros q Hq; apply Hq|cbn; lia|split; lia|unfold mad; cbn [fst snd elems step]; lia|apply vad_eq|reflexivity|].
          clear m Hu; intros m Hu.
          eapply upd_ext; [|exact Hu]. intros [a b]; unfold mdom, pos; cbn; lia.
        + clear m Hu. intros m Hu. eapply upd_ext; [|exact Hu]. intros [a b]; unfold mdom, pos; cbn; lia.
      - intros m Hu. apply HQ. eapply upd_ext; [|exact Hu]. intros [a b]; unfold mdom, pos; cbn; lia.
    Qed.
  End Ger.

  Lemma update_ger_recursive_wp : forall beta alpha minsz L, 2 <= minsz -> forall fuel A X Y m (Q : unit -> (Z -> T) -> Prop),
    isvec Y -> wf Y -> allocated L Y -> isvec X -> wf X -> allocated L X -> wf A -> allocated L A ->
    disjoint A X -> disjoint A Y -> rows A < Z.of_nat fuel -> rows A = vlen X -> cols A = vlen Y ->
    (forall m', upd m (mad A) (rval A X Y beta alpha m) (mdom A) m' -> Q tt m') ->
    wp (update_ger_recursive K fuel beta A alpha X Y minsz) L m Q.
  Proof.
    intros beta alpha minsz L Hmin. induction fuel as [|fuel IH];
      intros A X Y m Q VY WY LY VX WX LX WA LA DX DY Hf EX EY HQ.
    { destruct WA. lia. }
    cbn [update_ger_recursive]. apply wp_if; intros E.
    { apply update_ger_unb_wp; auto; lia. }
    pose proof WA as (HrA & HcA & HsA).
    destruct (quot2 (rows A) ltac:(lia)) as (EqY & _ & HnY). specialize (HnY ltac:(lia)).
    destruct (quot2 (cols A) ltac:(lia)) as (EqX & _ & HnX). specialize (HnX ltac:(lia)).
    set (n := rows A / 2) in *. set (p := cols A / 2) in *.
    rewrite EqY, EqX. cbv zeta. rewrite !vec_part_eq by (auto; lia). rewrite <- EX, <- EY.
    unfold mat_partition_2x2. cbn [ATL ATR ABL ABR].
    assert (Hblk : forall r nr c nc m0 m S (Q : unit -> (Z -> T) -> Prop), 0 <= r -> 0 <= nr < rows A -> r + nr <= rows A ->
      0 <= c -> 0 <= nc -> c + nc <= cols A ->
      upd m0 (mad A) (rval A X Y beta alpha m0) S m -> (forall q, S q -> mdom A q) ->
      (forall i j, S (i, j) -> r <= i < r + nr -> c <= j < c + nc -> False) ->
      (forall m', upd m0 (mad A) (rval A X Y beta alpha m0)
          (fun q => S q \/ (r <= fst q < r + nr /\ c <= snd q < c + nc)) m' -> Q tt m') ->
      wp (update_ger_recursive K fuel beta (armas_submatrix_unsafe A r c nr nc) alpha
           (armas_subvector_unsafe X r nr) (armas_subvector_unsafe Y c nc) minsz) L m Q).
    { clear HQ Q m. intros r nr c nc m0 m S Q Hr Hnr Hrn Hc Hnc Hcn Hu HS Hn HQ.
      destruct (subv_facts L X r nr) as (A1 & A2 & A3 & A4 & A5); auto; try lia.
      destruct (subv_facts L Y c nc) as (B1 & B2 & B3 & B4 & B5); auto; try lia.
      destruct (subm_facts L A r c nr nc) as (C1 & C2 & C3 & C4 & C5); auto; try lia.
      apply IH; auto; try lia.
      - eapply disj_cells; [exact DX|auto|auto].
      - eapply disj_cells; [exact DY|auto|auto].
      - intros m' Hu'. apply HQ.
        assert (Hu2 : upd m (mad A) (rval A X Y beta alpha m0) (fun q => r <= fst q < r + nr /\ c <= snd q < c + nc) m').
        { eapply upd_reindex; [| |exact Hu'].
          - intros [i j] (Hi & Hj). cbn [fst snd] in *. exists (r + i, c + j). cbn [fst snd]. split; [lia|]. apply sub_mad.
          - intros [i j] (Hi & Hj). cbn [fst snd] in *. exists (i - r, j - c). split; [split; cbn [fst snd]; lia|].
            rewrite sub_mad. replace (r + (i - r)) with i by lia. replace (c + (j - c)) with j by lia. split; auto.
            unfold rval. cbn [fst snd]. rewrite sub_mad, !subv_vad by (auto; lia).
            replace (r + (i - r)) with i by lia. replace (c + (j - c)) with j by lia.
            assert (HN : ~ S (i, j)) by (intros HH; apply (Hn i j HH); lia). assert (HP : pos A i j) by (split; lia).
            rewrite (mupd_old _ _ _ _ _ _ _ Hu) by auto.
            rewrite (mupd_disj _ _ _ _ _ X _ Hu) by (auto; apply vad_cell; auto; unfold vdom; lia).
            rewrite (mupd_disj _ _ _ _ _ Y _ Hu) by (auto; apply vad_cell; auto; unfold vdom; lia). reflexivity. }
        eapply upd_seq_gen with (U := mdom A); [apply mad_inj; auto|exact HS| | |exact Hu|exact Hu2| | |]; cbv beta;
          try (intros; reflexivity); auto.
        + intros [i j]; cbn [fst snd]; unfold mdom, pos; cbn [fst snd]; lia.
        + intros [i j]. cbn [fst snd]. destruct (Z_le_dec r i), (Z_lt_dec i (r + nr)), (Z_le_dec c j), (Z_lt_dec j (c + nc));
            ((left; lia) || (right; lia)). }
    assert (U0 : upd m (mad A) (rval A X Y beta alpha m) (fun _ => False) m) by (apply upd_nil; auto).
    wbind. eapply Hblk; [..|exact U0| | |]; try lia; try tauto. intros m1 U1.
    wbind. eapply Hblk; [..|exact U1| | |]; try lia;
      try (intros [i j]; unfold mdom, pos; cbn [fst snd]; lia); try (intros i j; cbn [fst snd]; lia). intros m2 U2.
    wbind. eapply Hblk; [..|exact U2| | |]; try lia;
      try (intros [i j]; unfold mdom, pos; cbn [fst snd]; lia); try (intros i j; cbn [fst snd]; lia). intros m3 U3.
    eapply Hblk; [..|exact U3| | |]; try lia;
      try (intros [i j]; unfold mdom, pos; cbn [fst snd]; lia); try (intros i j; cbn [fst snd]; lia). intros m4 U4.
    apply HQ. eapply upd_ext; [|exact U4]. intros [i j]. unfold mdom, pos; cbn [fst snd]. lia.
  Qed.

  Lemma mvupdate_spec : forall fuel blas2min optflags L m beta A alpha x y,
    2 <= blas2min \/ optflags = ARMAS_ONAIVE -> rows A < Z.of_nat fuel ->
    isvec y -> wf y -> allocated L y -> isvec x -> wf x -> allocated L x -> wf A -> allocated L A ->
    disjoint A x -> disjoint A y -> vlen x = rows A -> vlen y = cols A ->
    exists m', armas_mvupdate K fuel blas2min optflags beta A alpha x y L m = Some (0, m') /\
      (forall i j, pos A i j -> elt m' A i j = beta *' elt m A i j +' alpha *' (velt m x i *' velt m y j)) /\
      only_changes A m m'.
  Proof.
    intros fuel blas2min optflags L m beta A alpha x y Hmin Hf Vy Wy Ly Vx Wx Lx WA LA DX DY EX EY.
    assert (W : wp (armas_mvupdate K fuel blas2min optflags beta A alpha x y) L m (fun r m' => r = 0 /\
      (forall i j, pos A i j -> elt m' A i j = beta *' elt m A i j +' alpha *' (velt m x i *' velt m y j)) /\
      only_changes A m m')).
    { unfold armas_mvupdate. change (armas_size x) with (vlen x). change (armas_size y) with (vlen y).
      pose proof WA as (HrA & HcA & HsA). apply wp_if; intros E.
      { apply wp_ret. split; [auto|]. split; [|intros a _; reflexivity].
        intros i j (Hi & Hj). exfalso. unfold armas_size in E. nia. }
      apply isvector_isvec in Vx as E1. apply isvector_isvec in Vy as E2. rewrite E1, E2. cbn [negb].
      rewrite <- EX, <- EY, !Z.eqb_refl. cbn [negb orb]. wbind.
      assert (Hfin : forall m', upd m (mad A) (rval A x y beta alpha m) (mdom A) m' ->
        wp (ret 0) L m' (fun r m' => r = 0 /\
          (forall i j, pos A i j -> elt m' A i j = beta *' elt m A i j +' alpha *' (velt m x i *' velt m y j)) /\
          only_changes A m m')).
      { intros m' Hu. apply wp_ret. split; [auto|]. split.
        - intros i j Hp. rewrite !elt_mad. rewrite (upd_new _ _ _ _ _ (i, j) Hu) by auto. reflexivity.
        - eapply mupd_only; eauto. }
      apply wp_if; intros En.
      - apply update_ger_unb_wp; auto; lia.
      - apply update_ger_recursive_wp; auto; lia. }
    destruct W as (r & m' & E & -> & H1 & H2). eauto.
  Qed.
End P.
