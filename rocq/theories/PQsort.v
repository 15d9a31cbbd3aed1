(* PQsort.v: lemmas on quicksort. *)
From Coq Require Import ZArith Lia Bool ZifyBool.
From Verif Require Import Mem MView SpecView PView PSub Hoare MFlags MCopy PUpd PCopy MNum SpecNum SpecPivot MPivot PPivot MSort PSort.
Local Open Scope Z_scope.
Local Open Scope prog_scope.

(* arithmetic without the comparisons of elements *)
Ltac zl := repeat match goal with H : context [PSort.lt] |- _ => clear H end; lia.

Section Q.
  Context {T : Type} (K : num T) (HO : ltb_ok K).
  Implicit Types (m : Z -> T) (L : Z -> bool).
  Notation lt := (lt K).

  Definition distinct (x : view) m : Prop :=
    forall i j, 0 <= i -> i < j -> j < vlen x -> velt m x i <> velt m x j.

  Definition sorted (x : view) (up : bool) m : Prop :=
    forall i j, 0 <= i -> i < j -> j < vlen x -> lt up (velt m x j) (velt m x i) = false.

  Lemma distinct_moved : forall x pi m m', pb (vlen x) pi -> vmoved x pi m m' -> distinct x m -> distinct x m'.
  Proof.
    intros x pi m m' P (M1 & _) D i j Hi Hij Hj. rewrite !M1 by zl.
    pose proof (pb_range _ _ i P ltac:(zl)). pose proof (pb_range _ _ j P ltac:(zl)).
    assert (pi i <> pi j) by (intros E; apply (pb_inj _ _ i j P) in E; zl).
    destruct (Z_lt_le_dec (pi i) (pi j)).
    - apply D; zl.
    - apply not_eq_sym. apply D; zl.
  Qed.

  Lemma scan_up_wp : forall L x up pivot n, isvec x -> wf x -> allocated L x -> n = vlen x -> L (vad x n) = true ->
    forall fuel i m (Q : Z -> (Z -> T) -> Prop), 0 <= i <= n -> n - i < Z.of_nat fuel ->
    (forall i', i <= i' <= n -> (forall q, i <= q < i' -> lt up (velt m x q) pivot = true) ->
       (i' < n -> lt up (velt m x i') pivot = false) -> Q i' m) ->
    wp (scan_up K fuel x up pivot i n) L m Q.
  Proof.
    intros L x up pivot n V W A Hn Ln. induction fuel as [|f IH]; intros i m Q Hi Hf HQ; [zl|]. cbn [scan_up].
    wbind. unfold armas_get_at_unsafe. rewrite set_at_addr. apply wp_rd.
    { destruct (Z.eq_dec i n) as [->|]; auto. apply A, vad_cell; auto. unfold vdom; zl. }
    rewrite <- velt_vad. apply wp_if; intros E.
    - apply andb_prop in E. destruct E as (E1 & E2). apply IH; [zl|zl|].
      intros i' Hi' H1 H2. apply HQ; [zl| |auto].
      intros q Hq. destruct (Z.eq_dec q i) as [->|]; [exact E1|]. apply H1. zl.
    - apply wp_ret. apply HQ; [zl|intros; zl|]. intros Hlt. unfold PSort.lt.
      destruct (if up then _ else _); auto. cbn [andb] in E. zl.
  Qed.

  Lemma scan_down_wp : forall L x up pivot, isvec x -> wf x -> allocated L x -> 0 < vlen x ->
    forall fuel j m (Q : Z -> (Z -> T) -> Prop), velt m x 0 = pivot -> 0 <= j < vlen x -> j < Z.of_nat fuel ->
    (forall j', 0 <= j' <= j -> (forall q, j' < q <= j -> lt up pivot (velt m x q) = true) ->
       lt up pivot (velt m x j') = false -> Q j' m) ->
    wp (scan_down K fuel x up pivot j) L m Q.
  Proof.
    intros L x up pivot V W A Hn. induction fuel as [|f IH]; intros j m Q H0 Hj Hf HQ; [zl|]. cbn [scan_down].
    wbind. apply get_at_wp; auto. apply wp_if; intros E.
    - assert (j <> 0).
      { intros ->. rewrite H0 in E. pose proof (lt_irr K HO up pivot) as X. unfold PSort.lt in X. destruct up; congruence. }
      apply IH; auto; try zl. intros j' Hj' H1 H2. apply HQ; [zl| |auto].
      intros q Hq. destruct (Z.eq_dec q j) as [->|]; [exact E|]. apply H1. zl.
    - apply wp_ret. apply HQ; [zl|intros; zl|exact E].
  Qed.

  (* state inside the partition loop *)
  Definition pinv (x : view) (up : bool) (pivot : T) (i j : Z) m : Prop :=
    velt m x 0 = pivot /\ distinct x m /\
    (forall q, 1 <= q < i -> lt up (velt m x q) pivot = true) /\
    (forall q, j < q < vlen x -> lt up pivot (velt m x q) = true).

  Lemma part_loop_wp : forall L x up pivot n, isvec x -> wf x -> allocated L x -> n = vlen x -> L (vad x n) = true ->
    forall fuel (again : bool) i j m (Q : Z -> (Z -> T) -> Prop), 1 <= i <= n -> 0 <= j < n -> i <= j + 1 ->
    pinv x up pivot i j m ->
    (again = true -> lt up (velt m x i) pivot = true /\ lt up pivot (velt m x j) = true) ->
    j - i + 1 + (if again then 0 else 1) < Z.of_nat fuel ->
    (forall j' m' pi, 0 <= j' < n -> pb n pi -> vmoved x pi m m' -> pinv x up pivot (j' + 1) j' m' -> Q j' m') ->
    wp (part_loop K fuel x up pivot i j n) L m Q.
  Proof.
    intros L x up pivot n V W A Hn Ln. induction fuel as [|f IH]; intros again i j m Q Hi Hj Hij I Hag Hf HQ; [destruct again; zl|].
    cbn [part_loop]. destruct I as (I0 & ID & IL & IG).
    assert (tri : forall i', 0 < i' < n -> lt up (velt m x i') pivot = false -> lt up pivot (velt m x i') = false -> False).
    { intros i' Hi' E1 E2. destruct (lt_total K HO up pivot (velt m x i')) as [X|[X|X]]; [congruence| |congruence].
      apply (ID 0 i'); try zl. congruence. }
    wbind. apply scan_up_wp; auto; try zl. intros i1 Hi1 S1 S2.
    wbind. apply scan_down_wp; auto; try zl. intros j1 Hj1 D1 D2.
    assert (IL' : forall q, 1 <= q < i1 -> lt up (velt m x q) pivot = true).
    { intros q Hq. destruct (Z_lt_le_dec q i); [apply IL; zl|apply S1; zl]. }
    assert (IG' : forall q, j1 < q < n -> lt up pivot (velt m x q) = true).
    { intros q Hq. destruct (Z_lt_le_dec j q); [apply IG; zl|apply D1; zl]. }
    assert (HI1 : i1 <= j1 + 1).
    { destruct (Z_le_dec i1 (j1 + 1)); auto. exfalso.
      pose proof (IL' (j1 + 1) ltac:(zl)) as X. pose proof (IG' (j1 + 1) ltac:(zl)) as Y.
      apply (lt_asym K HO) in X. congruence. }
    apply wp_if; intros E.
    - apply wp_ret. apply HQ with (pi := fun q => q); [zl|apply pb_id|apply vmoved_id|].
      assert (i1 = j1 + 1).
      { destruct (Z.eq_dec i1 (j1 + 1)); auto. exfalso. assert (i1 = j1) by zl. subst j1.
        apply (tri i1); auto; try zl. apply S2; zl. }
      split; [auto|]. split; [auto|]. split; [rewrite <- H; exact IL'|]. intros; apply IG'; zl.
    - assert (X1 : lt up pivot (velt m x i1) = true).
      { destruct (lt up pivot (velt m x i1)) eqn:X; auto. exfalso. apply (tri i1); auto; try zl. apply S2; zl. }
      assert (X2 : lt up (velt m x j1) pivot = true).
      { destruct (lt up (velt m x j1) pivot) eqn:X; auto. exfalso. apply (tri j1); auto; zl. }
      wbind. apply swap_at_wp; auto; try zl. intros m1 M1.
      assert (P1 : pb n (transp i1 j1)) by (apply pb_transp; zl).
      assert (M1' := M1). destruct M1' as (M1e & _).
      assert (Et : forall q, q <> i1 -> q <> j1 -> transp i1 j1 q = q) by (intros q N1 N2; unfold transp; split_ifs; zl).
      assert (Ei : transp i1 j1 i1 = j1) by (unfold transp; split_ifs; zl).
      assert (Ej : transp i1 j1 j1 = i1) by (unfold transp; split_ifs; zl).
      apply (IH true); auto; try zl.
      + split; [rewrite M1e, Et by zl; auto|]. split; [apply (distinct_moved _ (transp i1 j1) m); subst n; auto|]. split.
        * intros q Hq. rewrite M1e by zl. rewrite Et by zl. apply IL'; zl.
        * intros q Hq. rewrite M1e by zl. rewrite Et by zl. apply IG'; zl.
      + intros _. rewrite !M1e by zl. rewrite Ei, Ej. auto.
      + destruct again; [|zl]. destruct (Hag eq_refl) as (G1 & G2).
        assert (i1 <> i) by (intros ->; apply (lt_asym K HO) in X1; congruence).
        assert (j1 <> j) by (intros ->; apply (lt_asym K HO) in X2; congruence). zl.
      + intros j' m' pi Hj' Hpi Hm Hp. apply HQ with (pi := fun q => transp i1 j1 (pi q)); auto.
        * apply (pb_comp n (transp i1 j1) pi); auto.
        * apply (vmoved_trans x (transp i1 j1) pi m m1 m'); auto. intros q Hq. rewrite <- Hn in *. apply pb_range; auto.
  Qed.

  Definition qpost (x : view) (up : bool) m m' : Prop :=
    exists pi, pb (vlen x) pi /\ vmoved x pi m m' /\ sorted x up m'.

  Lemma isort_q : forall L m x up (Q : unit -> (Z -> T) -> Prop), isvec x -> wf x -> allocated L x ->
    (forall m', qpost x up m m' -> Q tt m') -> wp (isort K (armas_get_at_unsafe x) x up) L m Q.
  Proof.
    intros L m x up Q V W A HQ. eapply isort_wp with (g := fun a => a); auto.
    - intros i m0 Q0 Hi H. apply get_at_wp; auto.
    - intros m' pi P1 P2 P3 P4. apply HQ. exists pi. split; [auto|]. split; [split; auto|]. exact P4.
  Qed.

  Lemma sub_allocated : forall L x v n len, isvec x -> wf x -> allocated L x -> 0 <= n -> n + len <= vlen x ->
    vshows v x n len -> allocated L v.
  Proof.
    intros L x v n len V W A Hn Hl (_ & _ & _ & Hc & _) a Ha. apply Hc in Ha. destruct Ha as (k & Hk & ->).
    apply A. apply (vad_cell x k); auto. unfold vdom; zl.
  Qed.

  Lemma sub_end : forall x n len, isvec x -> wf x -> 0 <= n -> 2 <= len -> n + len <= vlen x ->
    vad (armas_subvector_unsafe x n len) len = vad x (n + len).
  Proof.
    intros x n len V W Hn Hl Hb. unfold vad, vec_pos, armas_subvector_unsafe.
    destruct (rows x =? 1) eqn:E; cbn -[Z.mul Z.add Z.eqb].
    - rewrite Z.eqb_refl. cbn [fst snd]. zl.
    - replace (len =? 1) with false by zl. cbn [fst snd]. zl.
  Qed.

  Lemma qsort_rec_wp : forall L up fuel x m (Q : unit -> (Z -> T) -> Prop), isvec x -> wf x -> allocated L x ->
    (CUTOFF <= vlen x -> L (vad x (vlen x)) = true) -> distinct x m -> vlen x + 1 < Z.of_nat fuel ->
    (forall m', qpost x up m m' -> Q tt m') -> wp (qsort_rec K fuel x up) L m Q.
  Proof.
    intros L up. induction fuel as [|f IH]; intros x m Q V W A Le D Hf HQ.
    { assert (0 <= vlen x) by (destruct W as (? & ? & ?); unfold vlen; nia). zl. }
    cbn [qsort_rec]. change (armas_size x) with (vlen x). apply wp_if; intros E; [apply isort_q; auto|].
    unfold CUTOFF in *. set (n := vlen x) in *.
    assert (Hn2 : 0 < n / 2 < n) by (split; [apply Z.div_str_pos; zl|apply Z.div_lt; zl]).
    set (h := n / 2) in *.
    wbind. apply get_at_wp; auto; [unfold n in *; zl|]. wbind. apply get_at_wp; auto; [unfold n in *; zl|].
    set (pivot := velt m x h).
    unfold armas_set_at_unsafe at 1 2. rewrite !set_at_addr.
    wbind. eapply wp_wr_v with (x := x) (m0 := m) (k := h) (S := fun _ => False) (F := fun i => velt m x (transp 0 h i)); auto.
    { apply upd_nil; auto. } { contradiction. } { unfold vdom; fold n; zl. } { f_equal. unfold transp. split_ifs; zl. }
    cbv beta. intros m1 U1. wbind.
    eapply wp_wr_v with (k := 0); [exact U1| | | | | | reflexivity| |]; auto.
    { cbv beta. intros q [[]| ->]. unfold vdom; fold n; zl. } { unfold vdom; fold n; zl. }
    cbv beta. intros m2 U2.
    assert (M2 : vmoved x (transp 0 h) m m2).
    { split.
      - intros i Hi. rewrite velt_vad. destruct (Z.eq_dec i 0) as [->|N1]; [|destruct (Z.eq_dec i h) as [->|N2]].
        + apply (upd_new _ _ _ _ _ 0 U2). auto.
        + apply (upd_new _ _ _ _ _ h U2). auto.
        + rewrite (vupd_old _ _ _ _ _ i U2); auto.
          * unfold transp. replace (i =? 0) with false by zl. replace (i =? h) with false by zl. reflexivity.
          * cbv beta. intros q [[[]| ->]| ->]; unfold vdom; fold n; zl.
          * cbv beta. zl.
      - eapply vupd_only; eauto. cbv beta. intros q [[[]| ->]| ->]; unfold vdom; fold n; zl. }
    assert (P2 : pb n (transp 0 h)) by (apply pb_transp; zl).
    assert (D2 : distinct x m2) by (apply (distinct_moved x (transp 0 h) m); auto).
    assert (E0 : velt m2 x 0 = pivot) by (destruct M2 as (M2 & _); rewrite M2 by (fold n; zl); reflexivity).
    clear U1 U2 m1.
    wbind. apply (part_loop_wp L x up pivot n V W A eq_refl (Le ltac:(zl)) f false 1 (n - 1) m2); try zl.
    { split; [auto|]. split; [auto|]. split; intros q Hq; fold n in Hq; zl. }
    intros j m3 pi3 Hj P3 M3 (I0 & I1 & I2 & I3).
    wbind. apply get_at_wp; auto. unfold armas_set_at_unsafe. rewrite !set_at_addr.
    wbind. eapply wp_wr_v with (x := x) (m0 := m3) (k := 0) (S := fun _ => False) (F := fun i => velt m3 x (transp 0 j i)); auto.
    { apply upd_nil; auto. } { contradiction. } { unfold vdom; fold n; zl. }
    cbv beta. intros m4 U4. wbind.
    eapply wp_wr_v with (k := j); [exact U4| | | | | | reflexivity| |]; auto.
    { cbv beta. intros q [[]| ->]. unfold vdom; fold n; zl. }
    { rewrite <- I0. f_equal. unfold transp. split_ifs; zl. }
    cbv beta. intros m5 U5.
    assert (M5 : vmoved x (transp 0 j) m3 m5).
    { split.
      - intros i Hi. rewrite velt_vad. destruct (Z.eq_dec i 0) as [->|N1]; [|destruct (Z.eq_dec i j) as [->|N2]].
        + apply (upd_new _ _ _ _ _ 0 U5). auto.
        + apply (upd_new _ _ _ _ _ j U5). auto.
        + rewrite (vupd_old _ _ _ _ _ i U5); auto.
          * unfold transp. replace (i =? 0) with false by zl. replace (i =? j) with false by zl. reflexivity.
          * cbv beta. intros q [[[]| ->]| ->]; unfold vdom; fold n; zl.
          * cbv beta. zl.
      - eapply vupd_only; eauto. cbv beta. intros q [[[]| ->]| ->]; unfold vdom; fold n; zl. }
    assert (P5 : pb n (transp 0 j)) by (apply pb_transp; zl).
    clear U4 U5 m4.
    (* contents after the partition *)
    assert (C5 : forall q, 0 <= q < j -> lt up (velt m5 x q) pivot = true).
    { intros q Hq. destruct M5 as (M5 & _). rewrite M5 by (fold n; zl). unfold transp.
      destruct (q =? 0) eqn:Eq; [apply I2; zl|]. replace (q =? j) with false by zl. apply I2; zl. }
    assert (C5j : velt m5 x j = pivot).
    { destruct M5 as (M5 & _). rewrite M5 by (fold n; zl). rewrite <- I0. f_equal. unfold transp. split_ifs; zl. }
    assert (C5g : forall q, j < q < n -> lt up pivot (velt m5 x q) = true).
    { intros q Hq. destruct M5 as (M5 & _). rewrite M5 by (fold n; zl). unfold transp.
      replace (q =? 0) with false by zl. replace (q =? j) with false by zl. apply I3; fold n; zl. }
    assert (D5 : distinct x m5) by (apply (distinct_moved x (transp 0 j) m3); auto).
    set (x0 := armas_subvector_unsafe x 0 j). set (x1 := armas_subvector_unsafe x (j + 1) (n - j - 1)).
    assert (V0 : vshows x0 x 0 j) by (apply subvec_unsafe_vshows; auto; fold n; zl).
    assert (V1 : vshows x1 x (j + 1) (n - j - 1)) by (apply subvec_unsafe_vshows; auto; fold n; zl).
    pose proof V0 as (V0a & V0b & V0c & V0d & V0e). pose proof V1 as (V1a & V1b & V1c & V1d & V1e).
    assert (DJ : disjoint x0 x1) by (apply vec_disj; auto; fold n; zl).
    wbind. apply IH; auto.
    { eapply sub_allocated with (x := x); eauto; fold n; zl. }
    { rewrite V0b. intros Hj8. unfold x0. rewrite sub_end by (auto; fold n; zl). apply A, vad_cell; auto; unfold vdom; fold n; zl. }
    { intros i k Hi Hik Hk. rewrite V0b in Hk. rewrite !V0c by zl. apply D5; fold n; zl. }
    { zl. }
    intros m6 (pi6 & P6 & (M6a & M6b) & S6). rewrite V0b in P6, M6a.
    assert (U6 : forall k, j <= k < n -> velt m6 x k = velt m5 x k).
    { intros k Hk. rewrite !velt_vad. apply M6b. intros Hc. apply V0d in Hc. destruct Hc as (k' & Hk' & Ek).
      apply (vad_inj x V W) in Ek; unfold vdom; fold n; zl. }
    assert (L6 : forall k, 0 <= k < j -> velt m6 x k = velt m5 x (pi6 k)).
    { intros k Hk. pose proof (M6a k Hk) as X. pose proof (pb_range _ _ k P6 Hk). rewrite !V0c in X by zl. exact X. }
    apply IH; auto.
    { eapply sub_allocated with (x := x); eauto; fold n; zl. }
    { rewrite V1b. intros Hj8. unfold x1. rewrite sub_end by (auto; fold n; zl).
      replace (j + 1 + (n - j - 1)) with n by zl. apply Le. zl. }
    { intros i k Hi Hik Hk. rewrite V1b in Hk. rewrite !V1c by zl. rewrite !U6 by zl. apply D5; fold n; zl. }
    { zl. }
    intros m7 (pi7 & P7 & (M7a & M7b) & S7). rewrite V1b in P7, M7a.
    assert (U7 : forall k, 0 <= k <= j -> velt m7 x k = velt m6 x k).
    { intros k Hk. rewrite !velt_vad. apply M7b. intros Hc. apply V1d in Hc. destruct Hc as (k' & Hk' & Ek).
      apply (vad_inj x V W) in Ek; unfold vdom; fold n; zl. }
    assert (G7 : forall k, j < k < n -> velt m7 x k = velt m5 x (j + 1 + pi7 (k - j - 1))).
    { intros k Hk. pose proof (M7a (k - j - 1) ltac:(zl)) as X. pose proof (pb_range _ _ (k - j - 1) P7 ltac:(zl)).
      rewrite !V1c in X by zl. replace (j + 1 + (k - j - 1)) with k in X by zl. rewrite X. apply U6. zl. }
    apply HQ.
    assert (PG : pb n (glue j pi6 pi7)) by (apply pb_glue; auto).
    assert (M7 : vmoved x (glue j pi6 pi7) m5 m7).
    { split.
      - intros k Hk. unfold glue. destruct (k <? j) eqn:E1; [|destruct (k =? j) eqn:E2].
        + rewrite U7 by zl. apply L6. zl.
        + assert (k = j) by zl. subst k. rewrite U7, U6 by zl. auto.
        + apply G7. fold n in Hk. zl.
      - intros a Ha. rewrite M7b, M6b; auto.
        + intros Hc. apply Ha. apply V0d in Hc. destruct Hc as (k & Hk & ->). apply (vad_cell x k); auto. unfold vdom; fold n; zl.
        + intros Hc. apply Ha. apply V1d in Hc. destruct Hc as (k & Hk & ->). apply (vad_cell x k); auto. unfold vdom; fold n; zl. }
    exists (fun k => transp 0 h (pi3 (transp 0 j (glue j pi6 pi7 k)))). split.
    { apply (pb_comp n (transp 0 h) (fun k => pi3 (transp 0 j (glue j pi6 pi7 k)))); auto.
      apply (pb_comp n pi3 (fun k => transp 0 j (glue j pi6 pi7 k))); auto.
      apply (pb_comp n (transp 0 j) (glue j pi6 pi7)); auto. }
    split.
    { assert (R : forall f, pb n f -> forall k, 0 <= k < vlen x -> 0 <= f k < vlen x) by (intros f0 P0 k0 Hk0; apply pb_range; auto).
      apply (vmoved_trans x (fun k => transp 0 h (pi3 (transp 0 j k))) (glue j pi6 pi7) m m5 m7); auto.
      apply (vmoved_trans x (fun k => transp 0 h (pi3 k)) (transp 0 j) m m3 m5); auto.
      apply (vmoved_trans x (transp 0 h) pi3 m m2 m3); auto. }
    assert (X0 : forall k, 0 <= k < j -> lt up (velt m7 x k) pivot = true).
    { intros k Hk. rewrite U7, L6 by zl. apply C5. apply pb_range; auto. }
    assert (XJ : velt m7 x j = pivot) by (rewrite U7, U6 by zl; auto).
    assert (X1 : forall k, j < k < n -> lt up pivot (velt m7 x k) = true).
    { intros k Hk. rewrite G7 by zl. apply C5g. pose proof (pb_range _ _ (k - j - 1) P7 ltac:(zl)). zl. }
    intros i k Hi Hik Hk. fold n in Hk.
    destruct (Z_lt_le_dec k j) as [Hkj|Hkj].
    - rewrite !U7 by zl. pose proof (S6 i k ltac:(zl) ltac:(zl) ltac:(zl)) as X. rewrite !V0c in X by zl. exact X.
    - destruct (Z_lt_le_dec i j) as [Hij|Hij].
      + apply (lt_asym K HO). destruct (Z.eq_dec k j) as [->|]; [rewrite XJ; auto|].
        apply (lt_trans K HO) with (b := pivot); auto. apply X1; zl.
      + destruct (Z.eq_dec i j) as [->|]; [rewrite XJ; apply (lt_asym K HO); apply X1; zl|].
        pose proof (S7 (i - j - 1) (k - j - 1) ltac:(zl) ltac:(zl) ltac:(zl)) as X. rewrite !V1c in X by zl.
        replace (j + 1 + (i - j - 1)) with i in X by zl. replace (j + 1 + (k - j - 1)) with k in X by zl. exact X.
  Qed.
End Q.
