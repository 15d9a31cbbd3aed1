(* PTrm.v: triangular matrix-vector multiplication and solve. *)
From Coq Require Import ZArith Lia Ring Field Bool ZifyBool.
From Verif Require Import Mem MView SpecView PView PSub Hoare MFlags MCopy PUpd PCopy
  MNum SpecNum MBlas1 PSum PBlas1 MElem PElem SpecPivot MPivot PPivot MSort PSort MBlas2 PMvec PBlas2
  PFrame SpecTrm MTrm.
Local Open Scope Z_scope.
Local Open Scope prog_scope.
Ltac lia := zlia.

(* the triangle and the transposition the switch statements select; UPPER and LOWER are not both given *)
Definition fup (flags : Z) : bool := has flags ARMAS_UPPER.
Definition ftr (flags : Z) : bool := has flags ARMAS_TRANS && (has flags ARMAS_UPPER || has flags ARMAS_LOWER).
Definition fun1 (flags : Z) : bool := has flags ARMAS_UNIT.
Definition fok (flags : Z) : Prop := has flags ARMAS_UPPER && has flags ARMAS_LOWER = false.

Lemma switch4 : forall A flags (a b c d : A), fok flags ->
  (let s := trm_bits flags in
   if s =? Z.lor ARMAS_UPPER ARMAS_TRANS then a else if s =? ARMAS_UPPER then b
   else if s =? Z.lor ARMAS_LOWER ARMAS_TRANS then c else d) =
  if fup flags then (if ftr flags then a else b) else (if ftr flags then c else d).
Proof.
  intros A flags a b c d H. unfold fok, trm_bits, fup, ftr in *. rewrite trm_switch.
  destruct (has flags ARMAS_TRANS), (has flags ARMAS_UPPER), (has flags ARMAS_LOWER); try reflexivity; discriminate.
Qed.

Lemma switch2 : forall A flags (a b : A), fok flags ->
  (let s := trm_bits flags in
   if (s =? Z.lor ARMAS_LOWER ARMAS_TRANS) || (s =? ARMAS_UPPER) then a else b) =
  if xorb (fup flags) (ftr flags) then a else b.
Proof.
  intros A flags a b H. unfold fok, trm_bits, fup, ftr in *. rewrite trm_switch.
  destruct (has flags ARMAS_TRANS), (has flags ARMAS_UPPER), (has flags ARMAS_LOWER); try reflexivity; discriminate.
Qed.

Section P.
  Context {T : Type} (K : num T).
  Implicit Types (m : Z -> T) (L : Z -> bool).
  Local Notation "x +' y" := (add K x y) (at level 50, left associativity).
  Local Notation "x -' y" := (sub K x y) (at level 50, left associativity).
  Local Notation "x *' y" := (mul K x y) (at level 40, left associativity).
  Hypothesis HR : is_ring K.
  Hypothesis HE : eqb_ok K.
  Let HR' : ring_theory (zero K) (one K) (add K) (mul K) (sub K) (opp K) eq := HR.
  Add Ring Kring : HR'.
  Local Notation subm := armas_submatrix_unsafe.
  Local Notation subv := armas_subvector_unsafe.

  Lemma scale_wp : forall L y beta m (Q : unit -> (Z -> T) -> Prop), vok L y ->
    (forall m', (forall k, 0 <= k < vlen y -> velt m' y k = beta *' velt m y k) -> only_changes y m m' -> Q tt m') ->
    wp (when (negb (eqb K beta (one K))) (armas_scale_unsafe K y beta)) L m Q.
  Proof.
    intros L y beta m Q (V & W & HL) HQ. apply wp_when; intros Eb.
    - unfold armas_scale_unsafe. apply isvector_isvec in V as E2. rewrite E2.
      apply vec_modify_wp; auto; try (change (armas_size y) with (vlen y); try pose proof (vlen_nonneg y W); lia).
      intros m1 Hu1. apply HQ.
      + intros k Hk. rewrite !velt_vad, (upd_new _ _ _ _ _ k Hu1) by (change (armas_size y) with (vlen y); lia). ring.
      + eapply vupd_only; eauto.
    - apply HQ; [|apply oc_refl]. intros k Hk.
      assert (eqb K beta (one K) = true) as Eb' by (destruct (eqb K beta (one K)); auto; discriminate).
      apply HE in Eb'. rewrite Eb'. ring.
  Qed.

  Lemma mvmult_unsafe_wp : forall fuel blas2min beta alpha flags L y A x m (Q : unit -> (Z -> T) -> Prop),
    has flags ARMAS_ABSA = false -> blas2min = 0 \/ 2 <= blas2min -> vlen y < Z.of_nat fuel ->
    vok L y -> vok L x -> mok L A -> disjoint y A -> disjoint y x -> 0 < rows A -> 0 < cols A ->
    gsize (has flags ARMAS_TRANS) y A x ->
    (forall m', (forall k, 0 <= k < vlen y -> velt m' y k = beta *' velt m y k +'
         alpha *' vsum K (vlen x) (fun j => opm (has flags ARMAS_TRANS) m A k j *' velt m x j)) ->
       only_changes y m m' -> Q tt m') ->
    wp (armas_mvmult_unsafe K fuel blas2min beta y alpha A x flags) L m Q.
  Proof.
    intros fuel blas2min beta alpha flags L y A x m Q Habs Hmin Hf Hy (Vx & Wx & Lx) (WA & LA) DA DX HrA HcA Hs HQ.
    pose proof Hy as (Vy & Wy & Ly). unfold armas_mvmult_unsafe.
    replace (armas_size A =? 0) with false by (unfold armas_size; nia).
    wbind. apply scale_wp; auto. intros m1 E1 O1. apply gemv_recursive_wp; auto.
    intros m2 Hu. apply HQ.
    - intros k Hk. rewrite velt_vad, (upd_new _ _ _ _ _ k Hu) by (unfold vdom; lia). unfold gval.
      rewrite <- velt_vad, E1 by lia. f_equal. f_equal. apply vsum_ext. intros j Hj.
      rewrite <- velt_vad, (oc_velt _ _ _ _ _ O1) by auto. f_equal.
      unfold opm, gsize in *. destruct (has flags ARMAS_TRANS); apply (oc_elt _ _ _ _ _ _ O1); auto; split; lia.
    - eapply only_trans; [exact O1|]. eapply vupd_only; eauto.
  Qed.

  (* ---- sums with triangular coefficients ---- *)
  Section Coef.
    Variables (up un tr : bool).
    Definition aij m A i j : T := if tr then elt m A j i else elt m A i j.
    Definition dii m A i : T := if un then one K else elt m A i i.

    Lemma coef_diag : forall m A i, optri K up un tr m A i i = dii m A i.
    Proof. intros. unfold optri, tri, dii. rewrite Z.eqb_refl. destruct tr; reflexivity. Qed.

    Lemma coef_low : forall m A i j, xorb up tr = false -> j < i -> optri K up un tr m A i j = aij m A i j.
    Proof. intros m A i j H Hl. unfold optri, tri, aij. replace (i =? j) with false by lia. replace (j =? i) with false by lia.
      destruct up, tr; try discriminate; replace (j <? i) with true by lia; reflexivity. Qed.
    Lemma coef_low0 : forall m A i j, xorb up tr = false -> i < j -> optri K up un tr m A i j = zero K.
    Proof. intros m A i j H Hl. unfold optri, tri, aij. replace (i =? j) with false by lia. replace (j =? i) with false by lia.
      destruct up, tr; try discriminate; replace (j <? i) with false by lia; reflexivity. Qed.
    Lemma coef_up : forall m A i j, xorb up tr = true -> i < j -> optri K up un tr m A i j = aij m A i j.
    Proof. intros m A i j H Hl. unfold optri, tri, aij. replace (i =? j) with false by lia. replace (j =? i) with false by lia.
      destruct up, tr; try discriminate; replace (i <? j) with true by lia; reflexivity. Qed.
    Lemma coef_up0 : forall m A i j, xorb up tr = true -> j < i -> optri K up un tr m A i j = zero K.
    Proof. intros m A i j H Hl. unfold optri, tri, aij. replace (i =? j) with false by lia. replace (j =? i) with false by lia.
      destruct up, tr; try discriminate; replace (i <? j) with false by lia; reflexivity. Qed.

    Lemma sum_low : forall m A n q f, xorb up tr = false -> 0 <= q < n ->
      vsum K n (fun j => optri K up un tr m A q j *' f j) =
      vsum K q (fun j => aij m A q j *' f j) +' dii m A q *' f q.
    Proof.
      intros m A n q f H Hq. replace n with (q + (1 + (n - q - 1))) by lia.
      rewrite !vsum_split by (auto; lia). rewrite (vsum_1 K HR).
      rewrite (vsum_zero K HR (n - q - 1)) by (intros; rewrite coef_low0 by (auto; lia); ring).
      rewrite Z.add_0_r, coef_diag. rewrite (vsum_ext K q _ (fun j => aij m A q j *' f j)).
      ring. intros k Hk. rewrite coef_low by (auto; lia). reflexivity.
    Qed.
    Lemma sum_up : forall m A n q f, xorb up tr = true -> 0 <= q < n ->
      vsum K n (fun j => optri K up un tr m A q j *' f j) =
      vsum K (n - 1 - q) (fun k => aij m A q (q + 1 + k) *' f (q + 1 + k)) +' dii m A q *' f q.
    Proof.
      intros m A n q f H Hq. replace n with (q + (1 + (n - 1 - q))) at 1 by lia.
      rewrite !vsum_split by (auto; lia). rewrite (vsum_1 K HR).
      rewrite (vsum_zero K HR q) by (intros; rewrite coef_up0 by (auto; lia); ring).
      rewrite Z.add_0_r, coef_diag. rewrite (vsum_ext K (n - 1 - q) _ (fun k => aij m A q (q + 1 + k) *' f (q + 1 + k))).
      ring. intros k Hk. rewrite coef_up by (auto; lia). rewrite Z.add_assoc. reflexivity.
    Qed.

    Lemma coef_same : forall Y A m m' i j, only_changes Y m m' -> disjoint Y A -> pos A i j -> rows A = cols A ->
      optri K up un tr m' A i j = optri K up un tr m A i j.
    Proof.
      intros Y A m m' i j Ho Hd (Hi & Hj) E. unfold optri, tri.
      destruct tr; rewrite !(oc_elt Y A m m') by (auto; split; lia); reflexivity.
    Qed.

    Lemma coef_sub : forall m A h nr nc i j,
      optri K up un tr m (subm A h h nr nc) i j = optri K up un tr m A (h + i) (h + j).
    Proof.
      intros. unfold optri, tri. rewrite !subm_elt.
      replace (h + i =? h + j) with (i =? j) by lia. replace (h + j =? h + i) with (j =? i) by lia.
      replace (h + i <? h + j) with (i <? j) by lia. replace (h + j <? h + i) with (j <? i) by lia. reflexivity.
    Qed.
  End Coef.

  Section Trm.
    Variables (fuel : nat) (blas1min blas2min : Z) (L : Z -> bool).
    Hypothesis Hb1 : 0 <= blas1min.

    (* ---- triangular product, unblocked ---- *)
    Section Unb.
      Variables (X A : view).
      Hypotheses (OX : vok L X) (OA : mok L A) (DX : disjoint X A).
      Hypotheses (Sq : rows A = cols A) (En : vlen X = cols A) (Hf : vlen X < Z.of_nat fuel).

      Definition prod (up un tr : bool) (alpha : T) m q : T :=
        alpha *' vsum K (vlen X) (fun j => optri K up un tr m A q j *' velt m X j).

      (* one element *)
      Lemma trmv_elem_wp : forall (up un tr : bool) alpha (m0 m : Z -> T) i a0 n len dot (Q : unit -> (Z -> T) -> Prop),
        0 <= i < vlen X -> only_changes X m0 m ->
        velt m X i = velt m0 X i ->
        0 <= n -> 0 <= len -> n + len <= vlen X ->
        (forall k, 0 <= k < len -> velt m a0 k = aij tr m0 A i (n + k)) ->
        (forall k, 0 <= k < len -> velt m X (n + k) = velt m0 X (n + k)) ->
        (dot = vsum K len (fun k => velt m a0 k *' velt m (subv X n len) k)) ->
        (if xorb up tr then n = (if un then i + 1 else i) /\ len = vlen X - n
         else n = 0 /\ len = (if un then i else i + 1)) ->
        (forall m', velt m' X i = prod up un tr alpha m0 i ->
           (forall q, 0 <= q < vlen X -> q <> i -> velt m' X q = velt m X q) -> only_changes X m0 m' -> Q tt m') ->
        wp (trmv_elem K X alpha un i (velt m X i) dot) L m Q.
      Proof.
        intros up un tr alpha m0 m i a0 n len dot Q Hi Ho Ei Hn Hl Hb Ha Hx Hd Hc HQ.
        destruct OX as (VX & WX & LX). unfold trmv_elem. apply set_at_wp; auto. intros m' E1 E2 O2. apply HQ; auto.
        - rewrite E1. unfold prod. f_equal.
          assert (Ed : dot = vsum K len (fun k => aij tr m0 A i (n + k) *' velt m0 X (n + k))).
          { rewrite Hd. apply vsum_ext. intros k Hk. rewrite subv_velt, Ha, Hx by (auto; lia). reflexivity. }
          destruct (xorb up tr) eqn:Ex.
          + rewrite sum_up by (auto; lia). destruct Hc as (-> & ->). unfold dii. destruct un.
            * rewrite Ed, Ei. replace (vlen X - (i + 1)) with (vlen X - 1 - i) by lia. ring.
            * rewrite Ed. replace (vlen X - i) with (1 + (vlen X - 1 - i)) by lia.
              rewrite vsum_split by (auto; lia). rewrite (vsum_1 K HR), Z.add_0_r.
              rewrite (vsum_ext K (vlen X - 1 - i) _ (fun k => aij tr m0 A i (i + 1 + k) *' velt m0 X (i + 1 + k))).
              unfold aij at 1. destruct tr; ring. intros k Hk. rewrite Z.add_assoc. reflexivity.
          + rewrite sum_low by (auto; lia). destruct Hc as (-> & ->). unfold dii. destruct un.
            * rewrite Ed, Ei. cbn [Z.add]. ring.
            * rewrite Ed. rewrite vsum_S by lia. cbn [Z.add]. unfold aij at 2. destruct tr; reflexivity.
        - eapply only_trans; eauto.
      Qed.

      Lemma trmv_unb_wp : forall alpha flags m (Q : unit -> (Z -> T) -> Prop), fok flags ->
        (forall m', (forall q, 0 <= q < vlen X -> velt m' X q = prod (fup flags) (fun1 flags) (ftr flags) alpha m q) ->
           only_changes X m m' -> Q tt m') ->
        wp (trmv_unb K fuel blas1min X alpha A flags) L m Q.
      Proof.
        intros alpha flags m Q Hok HQ. unfold trmv_unb. cbv zeta. rewrite switch4 by auto.
        pose proof OX as (VX & WX & LX). pose proof OA as (WA & LA). pose proof WA as (HrA & HcA & _).
        (* forward loops *)
        assert (Hup : forall (f : Z -> M T unit) up un tr, xorb up tr = true ->
          (forall i m1, 0 <= i < cols A -> only_changes X m m1 -> (forall q, i <= q < vlen X -> velt m1 X q = velt m X q) ->
            wp (f i) L m1 (fun _ m2 => velt m2 X i = prod up un tr alpha m i /\
              (forall q, 0 <= q < vlen X -> q <> i -> velt m2 X q = velt m1 X q) /\ only_changes X m m2)) ->
          (forall m', (forall q, 0 <= q < vlen X -> velt m' X q = prod up un tr alpha m q) -> only_changes X m m' -> Q tt m') ->
          wp (for_up 0 (cols A) 1 f) L m Q).
        { intros f up un tr Hx Hbody HQ'.
          apply wp_for1 with (I := fun i m1 => only_changes X m m1 /\ (forall q, i <= q < vlen X -> velt m1 X q = velt m X q) /\
            (forall q, 0 <= q < i -> q < vlen X -> velt m1 X q = prod up un tr alpha m q)).
          - split; [apply oc_refl|]. split; auto. intros; lia.
          - intros i m1 Hi (H1 & H2 & H3). eapply wp_conseq; [apply Hbody; auto|]. cbv beta.
            intros _ m2 (E & E' & O). split; auto. split.
            + intros q Hq. rewrite E' by lia. apply H2. lia.
            + intros q Hq Hq'. destruct (Z.eq_dec q i) as [->|]; auto. rewrite E' by lia. apply H3; lia.
          - intros m1 (H1 & H2 & H3). apply HQ'; auto. intros q Hq. apply H3; lia. }
        assert (Hdn : forall (f : Z -> M T unit) up un tr, xorb up tr = false ->
          (forall i m1, 0 <= i < cols A -> only_changes X m m1 -> (forall q, 0 <= q <= i -> velt m1 X q = velt m X q) ->
            wp (f i) L m1 (fun _ m2 => velt m2 X i = prod up un tr alpha m i /\
              (forall q, 0 <= q < vlen X -> q <> i -> velt m2 X q = velt m1 X q) /\ only_changes X m m2)) ->
          (forall m', (forall q, 0 <= q < vlen X -> velt m' X q = prod up un tr alpha m q) -> only_changes X m m' -> Q tt m') ->
          wp (for_down (cols A - 1) 0 f) L m Q).
        { intros f up un tr Hx Hbody HQ'.
          apply wp_for_down with (I := fun i m1 => only_changes X m m1 /\ (forall q, 0 <= q <= i -> velt m1 X q = velt m X q) /\
            (forall q, i < q < vlen X -> velt m1 X q = prod up un tr alpha m q)).
          - split; [apply oc_refl|]. split; auto. intros; lia.
          - intros i m1 Hi (H1 & H2 & H3). eapply wp_conseq; [apply Hbody; auto; lia|]. cbv beta.
            intros _ m2 (E & E' & O). split; auto. split.
            + intros q Hq. rewrite E' by lia. apply H2. lia.
            + intros q Hq. destruct (Z.eq_dec q i) as [->|]; auto. rewrite E' by lia. apply H3; lia.
          - intros m1 (H1 & H2 & H3). apply HQ'; auto. intros q Hq. apply H3; lia. }
        assert (HQ' : forall up un tr, up = fup flags -> un = fun1 flags -> tr = ftr flags ->
          forall m', (forall q, 0 <= q < vlen X -> velt m' X q = prod up un tr alpha m q) -> only_changes X m m' -> Q tt m').
        { intros ? ? ? -> -> ->. auto. }
        assert (Eun : has flags ARMAS_UNIT = fun1 flags) by reflexivity.
        set (un := fun1 flags) in *. clearbody un. clear Hok.
        assert (Hrow : forall (m1 : Z -> T) i c n k, only_changes X m m1 -> 0 <= i < cols A -> 0 <= c -> c + n <= cols A -> 0 <= k < n ->
          velt m1 (subm A i c 1 n) k = aij false m A i (c + k)).
        { intros m1 i c n k Ho Hi Hc Hcn Hk. rewrite sub_row_velt by auto. unfold aij.
          apply (oc_elt X A); auto. split; lia. }
        assert (Hcol : forall (m1 : Z -> T) i c n k, only_changes X m m1 -> 0 <= i < cols A -> 0 <= c -> c + n <= cols A -> 0 <= k < n ->
          velt m1 (subm A c i n 1) k = aij true m A i (c + k)).
        { intros m1 i c n k Ho Hi Hc Hcn Hk. rewrite sub_col_velt by auto. unfold aij.
          apply (oc_elt X A); auto. split; lia. }
        destruct (fup flags) eqn:Eup, (ftr flags) eqn:Etr; clear Eup Etr.
        - unfold trmv_lut. rewrite Eun. cbv zeta.
          apply (Hdn _ true un true); auto. intros i m1 Hi Ho Hold. wbind. apply get_at_safe_wp; auto; try lia. wbind.
          set (u := if un then 1 else 0). assert (Hu : (u = 1 /\ un = true) \/ (u = 0 /\ un = false)) by (subst u; destruct un; auto). clearbody u.
          destruct (sub_col_vok L A 0 i (i - u + 1)) as (V1 & V2 & V3); auto; try lia.
          destruct (vok_sub L X 0 (i - u + 1)) as (V4 & V5 & V6); auto; try lia.
          apply dot_unsafe_wp; auto; rewrite ?sub_col_len, ?subv_len by (auto; lia); try lia.
          eapply (trmv_elem_wp true un true alpha m m1 i (subm A 0 i (i - u + 1) 1) 0 (i - u + 1)); auto; try lia.
          + apply Hold; lia.
          + intros k Hk. apply Hcol; auto; lia.
          + intros k Hk. apply Hold; lia.
          + apply (vsum_comm K HR).
          + cbn [xorb]. split; auto. destruct Hu as [(-> & ->)|(-> & ->)]; lia.
        - unfold trmv_lu. rewrite Eun. cbv zeta.
          apply (Hup _ true un false); auto. intros i m1 Hi Ho Hold. wbind. apply get_at_wp; auto; try lia. wbind.
          set (u := if un then 1 else 0). assert (Hu : (u = 1 /\ un = true) \/ (u = 0 /\ un = false)) by (subst u; destruct un; auto). clearbody u.
          destruct (sub_row_vok L A i (i + u) (cols A - i - u)) as (V1 & V2 & V3); auto; try lia.
          destruct (vok_sub L X (i + u) (cols A - i - u)) as (V4 & V5 & V6); auto; try lia.
          apply dot_unsafe_wp; auto; rewrite ?sub_row_len, ?subv_len by (auto; lia); try lia.
          eapply (trmv_elem_wp true un false alpha m m1 i (subm A i (i + u) 1 (cols A - i - u)) (i + u) (cols A - i - u)); auto; try lia.
          + apply Hold; lia.
          + intros k Hk. apply Hrow; auto; lia.
          + intros k Hk. apply Hold; lia.
          + cbn [xorb]. destruct Hu as [(-> & ->)|(-> & ->)]; lia.
        - unfold trmv_llt. rewrite Eun. cbv zeta.
          apply (Hup _ false un true); auto. intros i m1 Hi Ho Hold. wbind. apply get_at_wp; auto; try lia. wbind.
          set (u := if un then 1 else 0). assert (Hu : (u = 1 /\ un = true) \/ (u = 0 /\ un = false)) by (subst u; destruct un; auto). clearbody u.
          destruct (sub_col_vok L A (i + u) i (cols A - i - u)) as (V1 & V2 & V3); auto; try lia.
          destruct (vok_sub L X (i + u) (cols A - i - u)) as (V4 & V5 & V6); auto; try lia.
          apply dot_unsafe_wp; auto; rewrite ?sub_col_len, ?subv_len by (auto; lia); try lia.
          eapply (trmv_elem_wp false un true alpha m m1 i (subm A (i + u) i (cols A - i - u) 1) (i + u) (cols A - i - u)); auto; try lia.
          + apply Hold; lia.
          + intros k Hk. apply Hcol; auto; lia.
          + intros k Hk. apply Hold; lia.
          + cbn [xorb]. destruct Hu as [(-> & ->)|(-> & ->)]; lia.
        - unfold trmv_ll. rewrite Eun. cbv zeta.
          apply (Hdn _ false un false); auto. intros i m1 Hi Ho Hold. wbind. apply get_at_safe_wp; auto; try lia. wbind.
          set (u := if un then 1 else 0). assert (Hu : (u = 1 /\ un = true) \/ (u = 0 /\ un = false)) by (subst u; destruct un; auto). clearbody u.
          destruct (sub_row_vok L A i 0 (i - u + 1)) as (V1 & V2 & V3); auto; try lia.
          destruct (vok_sub L X 0 (i - u + 1)) as (V4 & V5 & V6); auto; try lia.
          apply dot_unsafe_wp; auto; rewrite ?sub_row_len, ?subv_len by (auto; lia); try lia.
          eapply (trmv_elem_wp false un false alpha m m1 i (subm A i 0 1 (i - u + 1)) 0 (i - u + 1)); auto; try lia.
          + apply Hold; lia.
          + intros k Hk. apply Hrow; auto; lia.
          + intros k Hk. apply Hold; lia.
          + apply (vsum_comm K HR).
          + cbn [xorb]. split; auto. destruct Hu as [(-> & ->)|(-> & ->)]; lia.
      Qed.
    End Unb.

    (* ---- the two halves of the operands ---- *)
    Record halves_ok (X A xT xB ATL' ATR' ABL' ABR' : view) (n h : Z) : Prop := {
      h_xT : vok L xT; h_xB : vok L xB; h_TL : mok L ATL'; h_TR : mok L ATR'; h_BL : mok L ABL'; h_BR : mok L ABR';
      h_lT : vlen xT = h; h_lB : vlen xB = n - h;
      h_sTL : rows ATL' = h /\ cols ATL' = h; h_sTR : rows ATR' = h /\ cols ATR' = n - h;
      h_sBL : rows ABL' = n - h /\ cols ABL' = h; h_sBR : rows ABR' = n - h /\ cols ABR' = n - h;
      h_dT : forall B, (forall a, cell B a -> cell A a) -> disjoint xT B;
      h_dB : forall B, (forall a, cell B a -> cell A a) -> disjoint xB B;
      h_TB : disjoint xT xB; h_BT : disjoint xB xT;
      h_cTL : forall a, cell ATL' a -> cell A a; h_cTR : forall a, cell ATR' a -> cell A a;
      h_cBL : forall a, cell ABL' a -> cell A a; h_cBR : forall a, cell ABR' a -> cell A a;
      h_cT : forall a, cell xT a -> cell X a; h_cB : forall a, cell xB a -> cell X a;
      h_vT : forall m k, 0 <= k < h -> velt m xT k = velt m X k;
      h_vB : forall m k, 0 <= k < n - h -> velt m xB k = velt m X (h + k);
      h_oT : forall m m' k, only_changes xT m m' -> h <= k < n -> velt m' X k = velt m X k;
      h_oB : forall m m' k, only_changes xB m m' -> 0 <= k < h -> velt m' X k = velt m X k }.

    Lemma halves : forall X A n h, vok L X -> mok L A -> disjoint X A -> rows A = n -> cols A = n -> vlen X = n ->
      0 <= h <= n ->
      halves_ok X A (subv X 0 h) (subv X h (n - h)) (subm A 0 0 h h) (subm A 0 h h (n - h))
        (subm A h 0 (n - h) h) (subm A h h (n - h) (n - h)) n h.
    Proof.
      intros X A n h OX OA D Er Ec En Hh. pose proof OX as (VX & WX & LX). pose proof OA as (WA & LA).
      assert (C1 : forall a, cell (subv X 0 h) a -> cell X a) by (intros a; apply subv_in; auto; lia).
      assert (C2 : forall a, cell (subv X h (n - h)) a -> cell X a) by (intros a; apply subv_in; auto; lia).
      constructor; auto.
      all: try (apply vok_sub; auto; lia).
      all: try (apply mok_sub; auto; lia).
      all: try (apply subv_len; auto; lia).
      all: try (split; reflexivity).
      all: try (intros a; apply subm_in; auto; lia).
      all: try (apply subv_disj; auto; lia).
      - intros B HB. eapply disj_cells; eauto.
      - intros B HB. eapply disj_cells; eauto.
      - intros m k Hk. rewrite subv_velt by (auto; lia). reflexivity.
      - intros m k Hk. rewrite subv_velt by (auto; lia). reflexivity.
      - intros m m' k Ho Hk. eapply oc_subv with (n := 0) (len := h); eauto; lia.
      - intros m m' k Ho Hk. eapply oc_subv with (n := h) (len := n - h); eauto; lia.
    Qed.

    Hypothesis Hb2 : 2 <= blas2min.

    Ltac halve X A E :=
      assert (H2 : 2 <= cols A) by lia;
      destruct (quot2 (rows A) ltac:(lia)) as (Eq & _ & Hh); specialize (Hh ltac:(lia));
      rewrite Eq; cbv zeta; rewrite vec_part_eq by (auto; lia); unfold mat_partition_2x2; cbn [ATL ATR ABL ABR];
      set (h := rows A / 2) in *;
      replace (rows A - h) with (cols A - h) by lia; replace (vlen X - h) with (cols A - h) by lia;
      assert (E : halves_ok X A (subv X 0 h) (subv X h (cols A - h)) (subm A 0 0 h h) (subm A 0 h h (cols A - h))
        (subm A h 0 (cols A - h) h) (subm A h h (cols A - h) (cols A - h)) (cols A) h) by (apply halves; auto; lia);
      pose proof (fun m i j => subm_elt m A 0 h h (cols A - h) i j) as ETR;
      pose proof (fun m i j => subm_elt m A h 0 (cols A - h) h i j) as EBL;
      pose proof (fun up un tr m i j => coef_sub up un tr m A 0 h h i j) as ETL;
      pose proof (fun up un tr m i j => coef_sub up un tr m A h (cols A - h) (cols A - h) i j) as EBR;
      cbn [Z.add] in ETR, EBL, ETL;
      set (xT := subv X 0 h) in *; set (xB := subv X h (cols A - h)) in *;
      set (A00' := subm A 0 0 h h) in *; set (A01' := subm A 0 h h (cols A - h)) in *;
      set (A10' := subm A h 0 (cols A - h) h) in *; set (A11' := subm A h h (cols A - h) (cols A - h)) in *;
      clearbody xT xB A00' A01' A10' A11'; clearbody h; clear Eq;
      destruct E as [HxT HxB HTL HTR HBL HBR LT LB (R1 & R2) (R3 & R4) (R5 & R6) (R7 & R8) HdT HdB HTB HBT
        cTL cTR cBL cBR cT cB vT vB oT oB].

    Lemma trmv_forward_wp : forall flags alpha, fok flags -> xorb (fup flags) (ftr flags) = true ->
      forall f X A m (Q : unit -> (Z -> T) -> Prop),
      vok L X -> mok L A -> disjoint X A -> rows A = cols A -> vlen X = cols A ->
      vlen X < Z.of_nat fuel -> vlen X < Z.of_nat f ->
      (forall m', (forall q, 0 <= q < vlen X -> velt m' X q = prod X A (fup flags) (fun1 flags) (ftr flags) alpha m q) ->
         only_changes X m m' -> Q tt m') ->
      wp (trmv_forward_recursive K fuel blas1min blas2min f X alpha A flags blas2min) L m Q.
    Proof.
      intros flags alpha Hok. assert (Hcase : has flags ARMAS_UPPER = fup flags) by reflexivity.
      pose proof (fun X A OX OA D E1 E2 E3 alpha m Q => trmv_unb_wp X A OX OA D E1 E2 E3 alpha flags m Q Hok) as Hunb.
      set (up := fup flags) in *. set (un := fun1 flags) in *. set (tr := ftr flags) in *.
      clearbody up un tr. clear Hok. intros Hx. induction f as [|f IH]; intros X A m Q OX OA D Sq En Hf Hff HQ.
      { pose proof OX as (_ & W & _). pose proof (vlen_nonneg X W). lia. }
      pose proof OX as (VX & WX & LX). pose proof OA as (WA & LA). pose proof WA as (HrA & HcA & _).
      cbn [trmv_forward_recursive]. apply wp_if; intros E.
      { apply Hunb; auto. }
      halve X A HH.
      wbind. apply IH; auto; try lia.
      intros m1 E1 O1. wbind.
      assert (Hmid : forall m2, (forall k, 0 <= k < h -> velt m2 xT k = one K *' velt m1 xT k +'
           alpha *' vsum K (cols A - h) (fun j => aij tr m A k (h + j) *' velt m1 xB j)) -> only_changes xT m1 m2 ->
         wp (trmv_forward_recursive K fuel blas1min blas2min f xB alpha A11' flags blas2min) L m2 Q).
      { intros m2 E2 O2. apply IH; auto; try lia.
        intros m3 E3 O3.
        assert (OT : only_changes xT m m2) by (eapply only_trans; eauto).
        apply HQ.
        - intros q Hq. destruct (Z_lt_dec q h) as [Hlt|Hge].
          + rewrite (oB _ _ _ O3) by lia.
            rewrite <- vT by lia. rewrite E2 by lia. rewrite E1 by lia.
            unfold prod. rewrite LT, En. replace (cols A) with (h + (cols A - h)) at 2 by lia.
            rewrite vsum_split by (auto; lia).
            rewrite (vsum_ext K (cols A - h) (fun k => optri K up un tr m A q (h + k) *' velt m X (h + k))
                       (fun j => aij tr m A q (h + j) *' velt m1 xB j)).
            2: { intros k Hk. rewrite coef_up by (auto; lia). rewrite vB by lia.
                 rewrite (oT _ _ _ O1) by lia. reflexivity. }
            rewrite (vsum_ext K h (fun j => optri K up un tr m A00' q j *' velt m xT j)
                       (fun k => optri K up un tr m A q k *' velt m X k)).
            2: { intros k Hk. rewrite ETL, vT by lia. reflexivity. }
            ring.
          + replace q with (h + (q - h)) by lia. rewrite <- vB by lia. rewrite E3 by lia.
            unfold prod. rewrite LB, En. f_equal. replace (cols A) with (h + (cols A - h)) at 2 by lia.
            rewrite vsum_split by (auto; lia).
            rewrite (vsum_zero K HR h) by (intros; rewrite coef_up0 by (auto; lia); ring).
            rewrite (vsum_ext K (cols A - h) (fun j => optri K up un tr m2 A11' (q - h) j *' velt m2 xB j)
              (fun k => optri K up un tr m A (h + (q - h)) (h + k) *' velt m X (h + k))). ring.
            intros k Hk. rewrite EBR, vB by lia.
            rewrite (oT _ _ _ OT) by lia.
            f_equal. apply coef_same with (Y := xT); auto; split; lia.
        - eapply only_trans; [eapply oc_mono; [|exact OT]; auto|]. eapply oc_mono; [|exact O3]; auto. }
      rewrite Hcase. apply wp_if; intros Eu.
      - assert (Etr : tr = false) by (rewrite Eu in Hx; destruct tr; auto; discriminate). clear E1.
        apply mvmult_unsafe_wp; auto; try lia; [split; lia|].
        intros m2 E2 O2. apply Hmid; auto. intros k Hk. rewrite E2 by lia. rewrite LB. f_equal. f_equal.
        apply vsum_ext. intros j Hj. f_equal. unfold aij. rewrite Etr. unfold opm.
        change (has 0 ARMAS_TRANS) with false. cbv iota. rewrite ETR.
        apply (oc_elt xT A); auto; split; lia.
      - assert (Etr : tr = true) by (rewrite Eu in Hx; destruct tr; auto; discriminate). clear E1.
        apply mvmult_unsafe_wp; auto; try lia; [split; lia|].
        intros m2 E2 O2. apply Hmid; auto. intros k Hk. rewrite E2 by lia. rewrite LB. f_equal. f_equal.
        apply vsum_ext. intros j Hj. f_equal. unfold aij. rewrite Etr. unfold opm.
        change (has ARMAS_TRANS ARMAS_TRANS) with true. cbv iota. rewrite EBL.
        apply (oc_elt xT A); auto; split; lia.
    Qed.

    Lemma trmv_backward_wp : forall flags alpha, fok flags -> xorb (fup flags) (ftr flags) = false ->
      forall f X A m (Q : unit -> (Z -> T) -> Prop),
      vok L X -> mok L A -> disjoint X A -> rows A = cols A -> vlen X = cols A ->
      vlen X < Z.of_nat fuel -> vlen X < Z.of_nat f ->
      (forall m', (forall q, 0 <= q < vlen X -> velt m' X q = prod X A (fup flags) (fun1 flags) (ftr flags) alpha m q) ->
         only_changes X m m' -> Q tt m') ->
      wp (trmv_backward_recursive K fuel blas1min blas2min f X alpha A flags blas2min) L m Q.
    Proof.
      intros flags alpha Hok. assert (Hcase : has flags ARMAS_UPPER = fup flags) by reflexivity.
      pose proof (fun X A OX OA D E1 E2 E3 alpha m Q => trmv_unb_wp X A OX OA D E1 E2 E3 alpha flags m Q Hok) as Hunb.
      set (up := fup flags) in *. set (un := fun1 flags) in *. set (tr := ftr flags) in *.
      clearbody up un tr. clear Hok. intros Hx. induction f as [|f IH]; intros X A m Q OX OA D Sq En Hf Hff HQ.
      { pose proof OX as (_ & W & _). pose proof (vlen_nonneg X W). lia. }
      pose proof OX as (VX & WX & LX). pose proof OA as (WA & LA). pose proof WA as (HrA & HcA & _).
      cbn [trmv_backward_recursive]. apply wp_if; intros E.
      { apply Hunb; auto. }
      halve X A HH.
      wbind. apply IH; auto; try lia.
      intros m1 E1 O1. wbind.
      assert (Hmid : forall m2, (forall k, 0 <= k < cols A - h -> velt m2 xB k = one K *' velt m1 xB k +'
           alpha *' vsum K h (fun j => aij tr m A (h + k) j *' velt m1 xT j)) -> only_changes xB m1 m2 ->
         wp (trmv_backward_recursive K fuel blas1min blas2min f xT alpha A00' flags blas2min) L m2 Q).
      { intros m2 E2 O2. apply IH; auto; try lia.
        intros m3 E3 O3.
        assert (OB : only_changes xB m m2) by (eapply only_trans; eauto).
        apply HQ.
        - intros q Hq. destruct (Z_lt_dec q h) as [Hlt|Hge].
          + rewrite <- vT by lia. rewrite E3 by lia.
            unfold prod. rewrite LT, En. f_equal. replace (cols A) with (h + (cols A - h)) by lia.
            rewrite vsum_split by (auto; lia).
            rewrite (vsum_zero K HR (cols A - h)) by (intros; rewrite coef_low0 by (auto; lia); ring).
            rewrite (vsum_ext K h (fun j => optri K up un tr m2 A00' q j *' velt m2 xT j)
              (fun k => optri K up un tr m A q k *' velt m X k)). ring.
            intros k Hk. rewrite ETL, vT by lia.
            rewrite (oB _ _ _ OB) by lia.
            f_equal. apply coef_same with (Y := xB); auto; split; lia.
          + rewrite (oT _ _ _ O3) by lia. replace q with (h + (q - h)) by lia.
            rewrite <- vB by lia. rewrite E2 by lia. rewrite E1 by lia.
            unfold prod. rewrite LB, En. replace (cols A) with (h + (cols A - h)) at 2 by lia.
            rewrite vsum_split by (auto; lia).
            rewrite (vsum_ext K h (fun k => optri K up un tr m A (h + (q - h)) k *' velt m X k)
                       (fun j => aij tr m A (h + (q - h)) j *' velt m1 xT j)).
            2: { intros k Hk. rewrite coef_low by (auto; lia). rewrite vT by lia.
                 rewrite (oB _ _ _ O1) by lia. reflexivity. }
            rewrite (vsum_ext K (cols A - h) (fun j => optri K up un tr m A11' (q - h) j *' velt m xB j)
                       (fun k => optri K up un tr m A (h + (q - h)) (h + k) *' velt m X (h + k))).
            2: { intros k Hk. rewrite EBR, vB by lia. reflexivity. }
            ring.
        - eapply only_trans; [eapply oc_mono; [|exact OB]; auto|]. eapply oc_mono; [|exact O3]; auto. }
      rewrite Hcase. apply wp_if; intros Eu.
      - assert (Etr : tr = true) by (rewrite Eu in Hx; destruct tr; auto; discriminate). clear E1.
        apply mvmult_unsafe_wp; auto; try lia; [split; lia|].
        intros m2 E2 O2. apply Hmid; auto. intros k Hk. rewrite E2 by lia. rewrite LT. f_equal. f_equal.
        apply vsum_ext. intros j Hj. f_equal. unfold aij. rewrite Etr. unfold opm.
        change (has ARMAS_TRANS ARMAS_TRANS) with true. cbv iota. rewrite ETR.
        apply (oc_elt xB A); auto; split; lia.
      - assert (Etr : tr = false) by (rewrite Eu in Hx; destruct tr; auto; discriminate). clear E1.
        apply mvmult_unsafe_wp; auto; try lia; [split; lia|].
        intros m2 E2 O2. apply Hmid; auto. intros k Hk. rewrite E2 by lia. rewrite LT. f_equal. f_equal.
        apply vsum_ext. intros j Hj. f_equal. unfold aij. rewrite Etr. unfold opm.
        change (has 0 ARMAS_TRANS) with false. cbv iota. rewrite EBL.
        apply (oc_elt xB A); auto; split; lia.
    Qed.

    (* ---- triangular solve ---- *)
    Hypothesis HF : is_field K.

    Lemma div_mul : forall a d, d <> zero K -> d *' div K a d = a.
    Proof.
      intros a d Hd. rewrite (Fdiv_def HF). transitivity (a *' (div K (one K) d *' d)); [ring|].
      rewrite (Finv_l HF) by auto. ring.
    Qed.

    (* the last steps for one element: divide by the diagonal and store *)
    Lemma trsv_store_wp : forall (un : bool) X A (m : Z -> T) i v (Q : unit -> (Z -> T) -> Prop),
      vok L X -> mok L A -> pos A i i -> 0 <= i < vlen X -> un = true \/ elt m A i i <> zero K ->
      (forall m', dii un m A i *' velt m' X i = v ->
         (forall q, 0 <= q < vlen X -> q <> i -> velt m' X q = velt m X q) -> only_changes X m m' -> Q tt m') ->
      wp (xk <- (if un then ret v else d <- armas_get_unsafe A i i ;; ret (div K v d)) ;;
          armas_set_at_unsafe X i xk) L m Q.
    Proof.
      intros un X A m i v Q (VX & WX & LX) (WA & LA) Hp Hi Hd HQ. wbind. unfold dii in HQ. destruct un.
      - apply wp_ret. apply set_at_wp; auto. intros m' E1 E2 O. apply HQ; auto. rewrite E1. ring.
      - wbind. apply get_unsafe_wp; auto. apply wp_ret. apply set_at_wp; auto. intros m' E1 E2 O. apply HQ; auto.
        rewrite E1. destruct Hd; [discriminate|]. apply div_mul; auto.
    Qed.

    Section UnbS.
      Variables (X A : view).
      Hypotheses (OX : vok L X) (OA : mok L A) (DX : disjoint X A).
      Hypotheses (Sq : rows A = cols A) (En : vlen X = cols A) (Hf : vlen X < Z.of_nat fuel).

      Lemma dii_same : forall un m m' i, only_changes X m m' -> pos A i i -> dii un m' A i = dii un m A i.
      Proof. intros un m m' i Ho Hp. unfold dii. destruct un; auto. apply (oc_elt X A); auto. Qed.

      Lemma trsv_unb_wp : forall alpha flags m (Q : unit -> (Z -> T) -> Prop), fok flags -> 0 < cols A ->
        fun1 flags = true \/ (forall i, 0 <= i < cols A -> elt m A i i <> zero K) ->
        (forall m', (forall q, 0 <= q < vlen X ->
             vsum K (vlen X) (fun j => optri K (fup flags) (fun1 flags) (ftr flags) m A q j *' velt m' X j) = alpha *' velt m X q) ->
           only_changes X m m' -> Q tt m') ->
        wp (trsv_unb K fuel blas1min X alpha A flags) L m Q.
      Proof.
        intros alpha flags m Q Hok Hpos Hns HQ. unfold trsv_unb. cbv zeta. rewrite switch4 by auto.
        pose proof OX as (VX & WX & LX). pose proof OA as (WA & LA). pose proof WA as (HrA & HcA & _).
        assert (Eun : has flags ARMAS_UNIT = fun1 flags) by reflexivity.
        set (un := fun1 flags) in *. clearbody un. clear Hok.
        assert (Hdg : forall m1 i, only_changes X m m1 -> 0 <= i < cols A -> un = true \/ elt m1 A i i <> zero K).
        { intros m1 i Ho Hi. destruct Hns as [?|Hns]; auto. right. rewrite (oc_elt X A m m1) by (auto; split; lia). auto. }
        assert (Hfirst : forall i (Q : unit -> (Z -> T) -> Prop), 0 <= i < cols A ->
          (forall m', dii un m A i *' velt m' X i = alpha *' velt m X i ->
            (forall q, 0 <= q < vlen X -> q <> i -> velt m' X q = velt m X q) -> only_changes X m m' -> Q tt m') ->
          wp (trsv_first K X alpha A un i) L m Q).
        { intros i Q' Hi HQ'. unfold trsv_first. wbind. apply get_at_wp; auto; try lia. cbv zeta.
          apply trsv_store_wp; auto; try lia. split; lia. apply Hdg; auto. apply oc_refl. }
        assert (Helem : forall m1 i a0 n len (a : Z -> T) (Q : unit -> (Z -> T) -> Prop), 0 <= i < cols A -> only_changes X m m1 ->
          velt m1 X i = velt m X i -> vok L a0 -> vlen a0 = len -> 0 <= n -> 0 <= len -> n + len <= vlen X ->
          (forall k, 0 <= k < len -> velt m1 a0 k = a k) ->
          (forall m2, vsum K len (fun k => a k *' velt m1 X (n + k)) +' dii un m A i *' velt m2 X i = alpha *' velt m X i ->
            (forall q, 0 <= q < vlen X -> q <> i -> velt m2 X q = velt m1 X q) -> only_changes X m m2 -> Q tt m2) ->
          wp (trsv_elem K fuel blas1min X alpha A un i a0 (subv X n len)) L m1 Q).
        { intros m1 i a0 n len a Q' Hi Ho Ei (V1 & V2 & V3) Ea Hn Hl Hb Ha HQ'. unfold trsv_elem. wbind.
          apply get_at_wp; auto; try lia. wbind.
          destruct (vok_sub L X n len) as (V4 & V5 & V6); auto.
          apply dot_unsafe_wp; auto; rewrite ?subv_len by (auto; lia); try lia. cbv zeta.
          apply trsv_store_wp; auto; try lia. split; lia.
          intros m2 E1 E2 O2. apply HQ'; auto; [|eapply only_trans; eauto].
          rewrite (dii_same un m m1) in E1 by (auto; split; lia). rewrite E1, Ei.
          rewrite (vsum_ext K len (fun k => velt m1 a0 k *' velt m1 (subv X n len) k) (fun k => a k *' velt m1 X (n + k))). ring.
          intros k Hk. rewrite Ha, subv_velt by (auto; lia). reflexivity. }
        assert (Hlo : forall tr (f : Z -> M T unit), xorb (fup flags) (ftr flags) = false -> tr = ftr flags ->
          (forall i m1 (Q : unit -> (Z -> T) -> Prop), 1 <= i < cols A -> only_changes X m m1 -> velt m1 X i = velt m X i ->
            (forall m2, vsum K i (fun k => aij tr m A i k *' velt m1 X k) +' dii un m A i *' velt m2 X i = alpha *' velt m X i ->
            (forall q, 0 <= q < vlen X -> q <> i -> velt m2 X q = velt m1 X q) -> only_changes X m m2 -> Q tt m2) ->
            wp (f i) L m1 Q) ->
          wp (trsv_first K X alpha A un 0 ;; for_up 1 (cols A) 1 f) L m Q).
        { intros tr f Hx Htr Hbody. wbind. apply Hfirst; [lia|]. intros m1 E1 E1' O1.
          apply wp_for1 with (I := fun i m2 => only_changes X m m2 /\ (forall q, i <= q < vlen X -> velt m2 X q = velt m X q) /\
            (forall q, 0 <= q < i -> q < vlen X ->
               vsum K q (fun k => aij tr m A q k *' velt m2 X k) +' dii un m A q *' velt m2 X q = alpha *' velt m X q)).
          - split; auto. split; [intros; apply E1'; lia|]. intros q Hq Hq'. replace q with 0 by lia.
            rewrite vsum_0, E1 by lia. ring.
          - intros i m2 Hi (H1 & H2 & H3). apply Hbody; auto; [apply H2; lia|]. intros m3 E3 E3' O3.
            split; auto. split; [intros; rewrite E3' by lia; apply H2; lia|].
            intros q Hq Hq'. destruct (Z.eq_dec q i) as [->|].
            + rewrite <- E3. f_equal. apply vsum_ext. intros k Hk. rewrite E3' by lia. reflexivity.
            + rewrite E3' by lia. rewrite <- (H3 q) by lia. f_equal. apply vsum_ext. intros k Hk. rewrite E3' by lia. reflexivity.
          - intros m2 (H1 & H2 & H3). apply HQ; auto. intros q Hq. rewrite sum_low by auto. rewrite <- Htr. apply H3; lia. }
        assert (Hhi : forall tr (f : Z -> M T unit), xorb (fup flags) (ftr flags) = true -> tr = ftr flags ->
          (forall i m1 (Q : unit -> (Z -> T) -> Prop), 0 <= i < cols A - 1 -> only_changes X m m1 -> velt m1 X i = velt m X i ->
            (forall m2, vsum K (cols A - 1 - i) (fun k => aij tr m A i (i + 1 + k) *' velt m1 X (i + 1 + k)) +' dii un m A i *' velt m2 X i = alpha *' velt m X i ->
            (forall q, 0 <= q < vlen X -> q <> i -> velt m2 X q = velt m1 X q) -> only_changes X m m2 -> Q tt m2) ->
            wp (f i) L m1 Q) ->
          wp (trsv_first K X alpha A un (cols A - 1) ;; for_down (cols A - 2) 0 f) L m Q).
        { intros tr f Hx Htr Hbody. wbind. apply Hfirst; [lia|]. intros m1 E1 E1' O1.
          apply wp_for_down with (I := fun i m2 => only_changes X m m2 /\ (forall q, 0 <= q <= i -> velt m2 X q = velt m X q) /\
            (forall q, i < q < vlen X ->
               vsum K (cols A - 1 - q) (fun k => aij tr m A q (q + 1 + k) *' velt m2 X (q + 1 + k)) +' dii un m A q *' velt m2 X q = alpha *' velt m X q)).
          - split; auto. split; [intros; apply E1'; lia|]. intros q Hq. replace q with (cols A - 1) by lia.
            rewrite vsum_0, E1 by lia. ring.
          - intros i m2 Hi (H1 & H2 & H3). apply Hbody; auto; [lia|apply H2; lia|]. intros m3 E3 E3' O3.
            split; auto. split; [intros; rewrite E3' by lia; apply H2; lia|].
            intros q Hq. destruct (Z.eq_dec q i) as [->|].
            + rewrite <- E3. f_equal. apply vsum_ext. intros k Hk. rewrite E3' by lia. reflexivity.
            + rewrite E3' by lia. rewrite <- (H3 q) by lia. f_equal. apply vsum_ext. intros k Hk. rewrite E3' by lia. reflexivity.
          - intros m2 (H1 & H2 & H3). apply HQ; auto. intros q Hq. rewrite sum_up by auto. rewrite <- Htr, En. apply H3; lia. }
        assert (Hrow : forall (m1 : Z -> T) i c n k, only_changes X m m1 -> 0 <= i < cols A -> 0 <= c -> c + n <= cols A -> 0 <= k < n ->
          velt m1 (subm A i c 1 n) k = aij false m A i (c + k)).
        { intros m1 i c n k Ho Hi Hc Hcn Hk. rewrite sub_row_velt by auto. unfold aij.
          apply (oc_elt X A); auto. split; lia. }
        assert (Hcol : forall (m1 : Z -> T) i c n k, only_changes X m m1 -> 0 <= i < cols A -> 0 <= c -> c + n <= cols A -> 0 <= k < n ->
          velt m1 (subm A c i n 1) k = aij true m A i (c + k)).
        { intros m1 i c n k Ho Hi Hc Hcn Hk. rewrite sub_col_velt by auto. unfold aij.
          apply (oc_elt X A); auto. split; lia. }
        clear HQ Hfirst Hdg Hns.
        destruct (fup flags) eqn:Eup, (ftr flags) eqn:Etr.
        - unfold trsv_lut. rewrite Eun. cbv zeta. apply (Hlo true); auto.
          intros i m1 Q' Hi Ho Ei HQ'.
          apply Helem with (len := i) (a := fun k => aij true m A i k); auto; try lia; try apply sub_col_len.
          + apply sub_col_vok; auto; lia.
          + intros k Hk. apply (Hcol m1 i 0 i k); auto; lia.
        - unfold trsv_lu. rewrite Eun. cbv zeta. apply (Hhi false); auto.
          intros i m1 Q' Hi Ho Ei HQ'.
          apply Helem with (len := cols A - 1 - i) (a := fun k => aij false m A i (i + 1 + k)); auto; try lia; try apply sub_row_len.
          + apply sub_row_vok; auto; lia.
          + intros k Hk. apply Hrow; auto; lia.
        - unfold trsv_llt. rewrite Eun. cbv zeta. apply (Hhi true); auto.
          intros i m1 Q' Hi Ho Ei HQ'.
          apply Helem with (len := cols A - 1 - i) (a := fun k => aij true m A i (i + 1 + k)); auto; try lia; try apply sub_col_len.
          + apply sub_col_vok; auto; lia.
          + intros k Hk. apply Hcol; auto; lia.
        - unfold trsv_ll. rewrite Eun. cbv zeta. apply (Hlo false); auto.
          intros i m1 Q' Hi Ho Ei HQ'.
          apply Helem with (len := i) (a := fun k => aij false m A i k); auto; try lia; try apply sub_row_len.
          + apply sub_row_vok; auto; lia.
          + intros k Hk. apply (Hrow m1 i 0 i k); auto; lia.
      Qed.
    End UnbS.

    Lemma trsv_forward_wp : forall flags, fok flags -> xorb (fup flags) (ftr flags) = false ->
      forall f alpha X A m (Q : unit -> (Z -> T) -> Prop),
      vok L X -> mok L A -> disjoint X A -> rows A = cols A -> vlen X = cols A -> 0 < cols A ->
      vlen X < Z.of_nat fuel -> vlen X < Z.of_nat f ->
      fun1 flags = true \/ (forall i, 0 <= i < cols A -> elt m A i i <> zero K) ->
      (forall m', (forall q, 0 <= q < vlen X ->
           vsum K (vlen X) (fun j => optri K (fup flags) (fun1 flags) (ftr flags) m A q j *' velt m' X j) = alpha *' velt m X q) ->
         only_changes X m m' -> Q tt m') ->
      wp (trsv_forward_recursive K fuel blas1min blas2min f X alpha A flags blas2min) L m Q.
    Proof.
      intros flags Hok. assert (Hcase : has flags ARMAS_UPPER = fup flags) by reflexivity.
      pose proof (fun X A OX OA D E1 E2 E3 alpha m Q => trsv_unb_wp X A OX OA D E1 E2 E3 alpha flags m Q Hok) as Hunb.
      set (up := fup flags) in *. set (un := fun1 flags) in *. set (tr := ftr flags) in *.
      clearbody up un tr. clear Hok. intros Hx. induction f as [|f IH]; intros alpha X A m Q OX OA D Sq En Hn Hf Hff Hns HQ.
      { pose proof OX as (_ & W & _). pose proof (vlen_nonneg X W). lia. }
      pose proof OX as (VX & WX & LX). pose proof OA as (WA & LA). pose proof WA as (HrA & HcA & _).
      cbn [trsv_forward_recursive]. apply wp_if; intros E.
      { apply Hunb; auto. }
      assert (Hd1 : forall m1 h, only_changes X m m1 -> 0 <= h <= cols A -> un = true \/ (forall i, 0 <= i < h -> elt m1 (subm A 0 0 h h) i i <> zero K)).
      { intros m1 h Ho Hh. destruct Hns as [?|Hns]; auto. right. intros i Hi. rewrite subm_elt. rewrite (oc_elt X A m m1) by (auto; split; lia). apply Hns; lia. }
      assert (Hd2 : forall m1 h, only_changes X m m1 -> 0 <= h <= cols A -> un = true \/ (forall i, 0 <= i < cols A - h -> elt m1 (subm A h h (cols A - h) (cols A - h)) i i <> zero K)).
      { intros m1 h Ho Hh. destruct Hns as [?|Hns]; auto. right. intros i Hi. rewrite subm_elt. rewrite (oc_elt X A m m1) by (auto; split; lia). apply Hns; lia. }
      specialize (Hd1) with (h := rows A / 2). specialize (Hd2) with (h := rows A / 2).
      halve X A HH.
      assert (Hd1' : forall m1, only_changes X m m1 -> un = true \/ (forall i, 0 <= i < cols A00' -> elt m1 A00' i i <> zero K)).
      { intros m1 Ho. rewrite R2. apply Hd1; auto; lia. }
      assert (Hd2' : forall m1, only_changes X m m1 -> un = true \/ (forall i, 0 <= i < cols A11' -> elt m1 A11' i i <> zero K)).
      { intros m1 Ho. rewrite R8. apply Hd2; auto; lia. }
      clear Hd1 Hd2.
      wbind. apply IH; auto; try lia.
      { first [apply Hd1' | apply Hd2']; apply oc_refl. }
      intros m1 E1 O1. wbind.
      assert (Hmid : forall m2, (forall k, 0 <= k < cols A - h -> velt m2 xB k = alpha *' velt m1 xB k +'
           opp K (one K) *' vsum K (h) (fun j => aij tr m A (h + k) j *' velt m1 xT j)) -> only_changes xB m1 m2 ->
         wp (trsv_forward_recursive K fuel blas1min blas2min f xB (one K) A11' flags blas2min) L m2 Q).
      { intros m2 E2 O2.
        assert (OX1 : only_changes X m m1) by (eapply oc_mono; [|exact O1]; auto).
        assert (OX2 : only_changes X m m2) by (eapply only_trans; [exact OX1|]; eapply oc_mono; [|exact O2]; auto).
        apply IH; auto; try lia.
        intros m3 E3 O3.
        assert (OB : only_changes xB m1 m3) by (eapply only_trans; eauto).
        apply HQ.
        - intros q Hq. rewrite En. replace (cols A) with (h + (cols A - h)) by lia.
          rewrite vsum_split by (auto; lia).
          destruct (Z_lt_dec q h) as [Hlt|Hge].
          + rewrite (vsum_zero K HR (cols A - h)) by (intros; rewrite coef_low0 by (auto; lia); ring).
            specialize (E1 q ltac:(lia)). rewrite LT in E1. rewrite <- vT by lia. rewrite <- E1.
            rewrite (vsum_ext K h _ (fun j => optri K up un tr m A00' q j *' velt m1 xT j)); [ring|].
            intros k Hk. rewrite ETL. f_equal. rewrite (oB _ _ _ OB) by lia. symmetry. apply vT. lia.
          + specialize (E3 (q - h) ltac:(lia)). rewrite LB, E2 in E3 by lia.
            rewrite (vsum_ext K h _ (fun j => aij tr m A q j *' velt m1 xT j)).
            2: { intros k Hk. rewrite coef_low by (auto; lia). rewrite (oB _ _ _ OB), vT by lia. reflexivity. }
            rewrite (vsum_ext K (cols A - h) _ (fun j => optri K up un tr m2 A11' (q - h) j *' velt m3 xB j)).
            2: { intros k Hk. rewrite EBR, vB by lia. replace (h + (q - h)) with q by lia. f_equal. symmetry.
                 apply coef_same with (Y := X); auto; split; lia. }
            rewrite E3. replace (h + (q - h)) with q by lia. rewrite vB by lia. replace (h + (q - h)) with q by lia.
            rewrite (oT _ _ _ O1) by lia. ring.
        - eapply only_trans; [exact OX2|]. eapply oc_mono; [|exact O3]; auto. }
      rewrite Hcase. apply wp_if; intros Eu.
      - assert (Etr : tr = true) by (rewrite Eu in Hx; destruct tr; auto; discriminate). clear E1.
        apply mvmult_unsafe_wp; auto; try lia; [split; lia|].
        intros m2 E2 O2. apply Hmid; auto. intros k Hk. rewrite E2 by lia. rewrite LT. f_equal. f_equal.
        apply vsum_ext. intros j Hj. f_equal. unfold aij. rewrite Etr. unfold opm.
        change (has ARMAS_TRANS ARMAS_TRANS) with true. cbv iota. rewrite ETR.
        apply (oc_elt xT A); auto; split; lia.
      - assert (Etr : tr = false) by (rewrite Eu in Hx; destruct tr; auto; discriminate). clear E1.
        apply mvmult_unsafe_wp; auto; try lia; [split; lia|].
        intros m2 E2 O2. apply Hmid; auto. intros k Hk. rewrite E2 by lia. rewrite LT. f_equal. f_equal.
        apply vsum_ext. intros j Hj. f_equal. unfold aij. rewrite Etr. unfold opm.
        change (has 0 ARMAS_TRANS) with false. cbv iota. rewrite EBL.
        apply (oc_elt xT A); auto; split; lia.
    Qed.

    Lemma trsv_backward_wp : forall flags, fok flags -> xorb (fup flags) (ftr flags) = true ->
      forall f alpha X A m (Q : unit -> (Z -> T) -> Prop),
      vok L X -> mok L A -> disjoint X A -> rows A = cols A -> vlen X = cols A -> 0 < cols A ->
      vlen X < Z.of_nat fuel -> vlen X < Z.of_nat f ->
      fun1 flags = true \/ (forall i, 0 <= i < cols A -> elt m A i i <> zero K) ->
      (forall m', (forall q, 0 <= q < vlen X ->
           vsum K (vlen X) (fun j => optri K (fup flags) (fun1 flags) (ftr flags) m A q j *' velt m' X j) = alpha *' velt m X q) ->
         only_changes X m m' -> Q tt m') ->
      wp (trsv_backward_recursive K fuel blas1min blas2min f X alpha A flags blas2min) L m Q.
    Proof.
      intros flags Hok. assert (Hcase : has flags ARMAS_UPPER = fup flags) by reflexivity.
      pose proof (fun X A OX OA D E1 E2 E3 alpha m Q => trsv_unb_wp X A OX OA D E1 E2 E3 alpha flags m Q Hok) as Hunb.
      set (up := fup flags) in *. set (un := fun1 flags) in *. set (tr := ftr flags) in *.
      clearbody up un tr. clear Hok. intros Hx. induction f as [|f IH]; intros alpha X A m Q OX OA D Sq En Hn Hf Hff Hns HQ.
      { pose proof OX as (_ & W & _). pose proof (vlen_nonneg X W). lia. }
      pose proof OX as (VX & WX & LX). pose proof OA as (WA & LA). pose proof WA as (HrA & HcA & _).
      cbn [trsv_backward_recursive]. apply wp_if; intros E.
      { apply Hunb; auto. }
      assert (Hd1 : forall m1 h, only_changes X m m1 -> 0 <= h <= cols A -> un = true \/ (forall i, 0 <= i < h -> elt m1 (subm A 0 0 h h) i i <> zero K)).
      { intros m1 h Ho Hh. destruct Hns as [?|Hns]; auto. right. intros i Hi. rewrite subm_elt. rewrite (oc_elt X A m m1) by (auto; split; lia). apply Hns; lia. }
      assert (Hd2 : forall m1 h, only_changes X m m1 -> 0 <= h <= cols A -> un = true \/ (forall i, 0 <= i < cols A - h -> elt m1 (subm A h h (cols A - h) (cols A - h)) i i <> zero K)).
      { intros m1 h Ho Hh. destruct Hns as [?|Hns]; auto. right. intros i Hi. rewrite subm_elt. rewrite (oc_elt X A m m1) by (auto; split; lia). apply Hns; lia. }
      specialize (Hd1) with (h := rows A / 2). specialize (Hd2) with (h := rows A / 2).
      halve X A HH.
      assert (Hd1' : forall m1, only_changes X m m1 -> un = true \/ (forall i, 0 <= i < cols A00' -> elt m1 A00' i i <> zero K)).
      { intros m1 Ho. rewrite R2. apply Hd1; auto; lia. }
      assert (Hd2' : forall m1, only_changes X m m1 -> un = true \/ (forall i, 0 <= i < cols A11' -> elt m1 A11' i i <> zero K)).
      { intros m1 Ho. rewrite R8. apply Hd2; auto; lia. }
      clear Hd1 Hd2.
      wbind. apply IH; auto; try lia.
      { first [apply Hd1' | apply Hd2']; apply oc_refl. }
      intros m1 E1 O1. wbind.
      assert (Hmid : forall m2, (forall k, 0 <= k < h -> velt m2 xT k = alpha *' velt m1 xT k +'
           opp K (one K) *' vsum K (cols A - h) (fun j => aij tr m A k (h + j) *' velt m1 xB j)) -> only_changes xT m1 m2 ->
         wp (trsv_backward_recursive K fuel blas1min blas2min f xT (one K) A00' flags blas2min) L m2 Q).
      { intros m2 E2 O2.
        assert (OX1 : only_changes X m m1) by (eapply oc_mono; [|exact O1]; auto).
        assert (OX2 : only_changes X m m2) by (eapply only_trans; [exact OX1|]; eapply oc_mono; [|exact O2]; auto).
        apply IH; auto; try lia.
        intros m3 E3 O3.
        assert (OB : only_changes xT m1 m3) by (eapply only_trans; eauto).
        apply HQ.
        - intros q Hq. rewrite En. replace (cols A) with (h + (cols A - h)) by lia.
          rewrite vsum_split by (auto; lia).
          destruct (Z_lt_dec q h) as [Hlt|Hge].
          + specialize (E3 q ltac:(lia)). rewrite LT, E2 in E3 by lia.
            rewrite (vsum_ext K (cols A - h) _ (fun j => aij tr m A q (h + j) *' velt m1 xB j)).
            2: { intros k Hk. rewrite coef_up by (auto; lia). rewrite (oT _ _ _ OB), vB by lia. reflexivity. }
            rewrite (vsum_ext K h _ (fun j => optri K up un tr m2 A00' q j *' velt m3 xT j)).
            2: { intros k Hk. rewrite ETL, vT by lia. f_equal. symmetry.
                 apply coef_same with (Y := X); auto; split; lia. }
            rewrite E3, vT by lia.
            rewrite (oB _ _ _ O1) by lia. ring.
          + rewrite (vsum_zero K HR h) by (intros; rewrite coef_up0 by (auto; lia); ring).
            specialize (E1 (q - h) ltac:(lia)). rewrite LB, vB in E1 by lia. replace (h + (q - h)) with q in E1 by lia. rewrite <- E1.
            rewrite (vsum_ext K (cols A - h) _ (fun j => optri K up un tr m A11' (q - h) j *' velt m1 xB j)); [ring|].
            intros k Hk. rewrite EBR. replace (h + (q - h)) with q by lia. f_equal. rewrite (oT _ _ _ OB) by lia. symmetry. apply vB. lia.
        - eapply only_trans; [exact OX2|]. eapply oc_mono; [|exact O3]; auto. }
      rewrite Hcase. apply wp_if; intros Eu.
      - assert (Etr : tr = false) by (rewrite Eu in Hx; destruct tr; auto; discriminate). clear E1.
        apply mvmult_unsafe_wp; auto; try lia; [split; lia|].
        intros m2 E2 O2. apply Hmid; auto. intros k Hk. rewrite E2 by lia. rewrite LB. f_equal. f_equal.
        apply vsum_ext. intros j Hj. f_equal. unfold aij. rewrite Etr. unfold opm.
        change (has 0 ARMAS_TRANS) with false. cbv iota. rewrite ETR.
        apply (oc_elt xB A); auto; split; lia.
      - assert (Etr : tr = true) by (rewrite Eu in Hx; destruct tr; auto; discriminate). clear E1.
        apply mvmult_unsafe_wp; auto; try lia; [split; lia|].
        intros m2 E2 O2. apply Hmid; auto. intros k Hk. rewrite E2 by lia. rewrite LB. f_equal. f_equal.
        apply vsum_ext. intros j Hj. f_equal. unfold aij. rewrite Etr. unfold opm.
        change (has ARMAS_TRANS ARMAS_TRANS) with true. cbv iota. rewrite EBL.
        apply (oc_elt xB A); auto; split; lia.
    Qed.

    Definition trm_ok flags X A : Prop :=
      fok flags /\ vok L X /\ mok L A /\ disjoint X A /\ rows A = cols A /\ vlen X = cols A /\ vlen X < Z.of_nat fuel.

    Lemma trmv_switch_wp : forall X A alpha flags m (Q : unit -> (Z -> T) -> Prop), trm_ok flags X A ->
      (forall m', (forall q, 0 <= q < vlen X -> velt m' X q = prod X A (fup flags) (fun1 flags) (ftr flags) alpha m q) ->
         only_changes X m m' -> Q tt m') ->
      wp (trmv_switch K fuel blas1min blas2min X alpha A flags) L m Q.
    Proof.
      intros X A alpha flags m Q (Hok & OX & OA & D & Sq & En & Hf) HQ. unfold trmv_switch. rewrite switch2 by auto.
      destruct (xorb (fup flags) (ftr flags)) eqn:Ex.
      - apply trmv_forward_wp; auto.
      - apply trmv_backward_wp; auto.
    Qed.

    Lemma trsv_switch_wp : forall X A alpha flags m (Q : unit -> (Z -> T) -> Prop), trm_ok flags X A -> 0 < cols A ->
      fun1 flags = true \/ (forall i, 0 <= i < cols A -> elt m A i i <> zero K) ->
      (forall m', (forall q, 0 <= q < vlen X ->
           vsum K (vlen X) (fun j => optri K (fup flags) (fun1 flags) (ftr flags) m A q j *' velt m' X j) = alpha *' velt m X q) ->
         only_changes X m m' -> Q tt m') ->
      wp (trsv_switch K fuel blas1min blas2min X alpha A flags) L m Q.
    Proof.
      intros X A alpha flags m Q (Hok & OX & OA & D & Sq & En & Hf) Hn Hns HQ. unfold trsv_switch. rewrite switch2 by auto.
      destruct (xorb (fup flags) (ftr flags)) eqn:Ex.
      - apply trsv_backward_wp; auto.
      - apply trsv_forward_wp; auto.
    Qed.
  End Trm.
End P.
