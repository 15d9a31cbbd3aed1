(* PInvSpd.v: the inverse of a positive definite matrix, one column at a time. *)
From Coq Require Import ZArith Lia Bool ZifyBool Ring Field.
From Verif Require Import Mem MView SpecView PView PSub Hoare MFlags MBase MCopy PUpd PCopy
  MNum SpecNum MBlas1 PSum PBlas1 MElem PElem MBlas2 PMvec PBlas2 MSym PSym PFrame SpecTrm MTrm PTrm MGemm PGemm PMatcpy PMult
  MTrsm PTrsm MLap PLap MQr MQrMul PQrMul MInv PInvM PInv MLuInv PLuInv MInvSpd PInvSpdM
  Properties_Copy Properties_Blas1 Properties_Sym.
Local Open Scope Z_scope.
Local Open Scope prog_scope.
Ltac lia := nobool; zlia.

Section P.
  Context {T : Type} (K : num T).
  Hypotheses (HF : is_field K) (HE : eqb_ok K).
  Let HR : is_ring K := Field_theory.F_R HF.
  Let HR' : ring_theory (zero K) (one K) (add K) (mul K) (sub K) (opp K) eq := HR.
  Add Ring KringSP : HR'.
  Let HF' : field_theory (zero K) (one K) (add K) (mul K) (sub K) (opp K) (div K) (fun x => div K (one K) x) eq := HF.
  Add Field KfieldSP : HF'.
  Local Notation "a +' b" := (add K a b) (at level 50, left associativity).
  Local Notation "a -' b" := (sub K a b) (at level 50, left associativity).
  Local Notation "a *' b" := (mul K a b) (at level 40, left associativity).
  Local Notation "0'" := (zero K).
  Local Notation "1'" := (one K).
  Local Notation tr := (tr K).
  Local Notation dlt := (dlt K).

  Variables (E : lenv) (L : Z -> bool) (cb : cbuf).
  Variables (lo : bool) (A : view) (W w : Z).
  Hypotheses (EO : env_ok E L cb A) (OKA : mok L A) (Sq : rows A = cols A).
  Let n := cols A.
  Hypotheses (HW : forall a, W <= a < W + w -> L a = true /\ ~ cell A a).
  Local Notation V := (armas_submatrix_unsafe A).
  Local Notation "m .[ i , j ]" := (elt m A i j) (at level 1, format "m .[ i ,  j ]").
  Local Notation only := (blk_only E cb A).

  (* element of the lower triangle, or of the transpose of the upper one *)
  Definition acc (m : Z -> T) (i j : Z) : T := if lo then m.[i, j] else m.[j, i].
  (* the symmetric matrix stored there *)
  Definition sx (m : Z -> T) (i j : Z) : T := acc m (Z.max i j) (Z.min i j).
  (* the factor stored there *)
  Definition lf (m : Z -> T) (i j : Z) : T := if j <=? i then acc m i j else 0'.

  (* rows and columns k and above are done *)
  Definition pinv (m : Z -> T) (k : Z) (m' : Z -> T) : Prop :=
    (forall i j, 0 <= i < n -> 0 <= j < n -> j < k \/ i < j -> acc m' i j = acc m i j) /\
    (forall i j, 0 <= i < n - k -> 0 <= j < n - k ->
       vsum K (n - k) (fun p => sx m' (k + i) (k + p) *' vsum K (n - k) (fun q => lf m (k + p) (k + q) *' lf m (k + j) (k + q))) = dlt i j) /\
    outw E cb A W w m m'.

  Lemma pinv_n : forall m, pinv m n m.
  Proof. intros m. split; [reflexivity|split]. - intros i j Hi. exfalso. lia. - intros a _ _ _. reflexivity. Qed.

  Lemma pstep : forall m k b m1 m2, 0 <= k -> 0 <= b -> k + b <= n -> pinv m (k + b) m1 ->
    let x := fun i j => sx m2 (k + i) (k + j) in let l := fun i j => lf m (k + i) (k + j) in
    (forall i j, 0 <= i < n - k - b -> 0 <= j < b -> xlb K b (n - k - b) x l (b + i) j = 0') ->
    (forall i j, 0 <= i < b -> 0 <= j < b -> vsum K b (fun q => xlb K b (n - k - b) x l i q *' l j q) = dlt i j) ->
    (forall i j, 0 <= i < n -> 0 <= j < n -> ~ (k <= j < k + b /\ j <= i) -> acc m2 i j = acc m1 i j) -> outw E cb A W w m1 m2 -> pinv m k m2.
  Proof.
    intros m k b m1 m2 Hk Hb Hn (J1 & J2 & J3) x l H2 H1 F1 F2. split; [|split].
    - intros i j Hi Hj Hc. rewrite F1 by lia. apply J1; lia.
    - intros i j Hi Hj. assert (S := spd_step K HF b (n - k - b) x l Hb ltac:(lia)). replace (b + (n - k - b)) with (n - k) in S by lia. apply S; auto.
      + intros p q. unfold x, sx. rewrite (Z.max_comm (k + p)), (Z.min_comm (k + p)). reflexivity.
      + intros p q Hp. unfold l, lf. replace (k + q <=? k + p) with false by Lia.lia. reflexivity.
      + intros p q Hp Hq. replace (n - k - b) with (n - (k + b)) in * by lia. rewrite <- (J2 p q Hp Hq). apply vsum_ext. intros s Hs. f_equal.
        * unfold x, sx. rewrite !Z.add_assoc. apply F1; lia.
        * apply vsum_ext. intros t Ht. unfold l. rewrite !Z.add_assoc. reflexivity.
    - intros a X Y Z. rewrite F2, J3; auto.
  Qed.

  (* the column below the diagonal element, or the row right of it *)
  Definition yv (k : Z) : view := if lo then V (k + 1) k (n - k - 1) 1 else V k (k + 1) 1 (n - k - 1).
  Definition lv (r : Z) : view := armas_make r 1 w W.

  Lemma yv_in : forall k a, 0 <= k < n -> cell (yv k) a -> cell A a.
  Proof. intros k a Hk. unfold yv. destruct lo; apply (V_in L A OKA); unfold inA; rewrite Sq; fold n; lia. Qed.
  Lemma yv_ok : forall k, 0 <= k < n -> vok L (yv k).
  Proof. intros k Hk. unfold yv. destruct lo; [apply (V_col L A OKA)|apply (V_row L A OKA)]; unfold inA; rewrite Sq; fold n; lia. Qed.
  Lemma yv_len : forall k, vlen (yv k) = n - k - 1.
  Proof. intros k. unfold yv. destruct lo; [apply col_len|apply row_len]. Qed.
  Lemma yv_elt : forall m k i, 0 <= i < n - k - 1 -> velt m (yv k) i = acc m (k + 1 + i) k.
  Proof. intros m k i Hi. unfold yv, acc. destruct lo; [apply col_velt|apply row_velt]; auto. Qed.
  Lemma yv_acc : forall k m m', 0 <= k < n -> only_changes (yv k) m m' ->
    (forall i j, 0 <= i < n -> 0 <= j < n -> ~ (j = k /\ k < i) -> acc m' i j = acc m i j) /\ (forall a, ~ cell A a -> m' a = m a).
  Proof.
    intros k m m' Hk H. split; [|intros a Ha; apply H; intros X; apply Ha; apply (yv_in k); auto].
    assert (PP : forall i j, 0 <= i < n -> 0 <= j < n -> pos A i j) by (intros; split; [rewrite Sq|]; fold n; lia).
    intros i j Hi Hj Hne. unfold yv, acc in *. destruct lo.
    - assert (X : only (k + 1) k (n - k - 1) 1 m m') by (apply (blk_frame E L); auto; [unfold inA; rewrite Sq; fold n; lia|apply outb_oc; auto]).
      destruct X as (X & _). apply X; [auto|unfold inb; intros (Y1 & Y2); apply Hne; lia].
    - assert (X : only k (k + 1) 1 (n - k - 1) m m') by (apply (blk_frame E L); auto; [unfold inA; rewrite Sq; fold n; lia|apply outb_oc; auto]).
      destruct X as (X & _). apply X; [auto|unfold inb; intros (Y1 & Y2); apply Hne; lia].
  Qed.
  Lemma lv_cell : forall r a, cell (lv r) a <-> W <= a < W + r.
  Proof.
    intros r a. unfold lv, cell, pos. cbn [rows cols elems step armas_make]. split.
    - intros (i & j & Hp & ->). assert (j = 0) as -> by lia. lia.
    - intros Ha. exists (a - W), 0. split; lia.
  Qed.
  Lemma lv_elt : forall (m : Z -> T) r i, 0 <= i < r -> velt m (lv r) i = m (W + i).
  Proof.
    intros m r i Hi. unfold lv, velt, vec_pos. cbn [rows cols armas_make]. destruct (r =? 1) eqn:X.
    - apply Z.eqb_eq in X. assert (i = 0) as -> by lia. unfold elt. cbn [fst snd elems step armas_make]. f_equal. lia.
    - unfold elt. cbn [fst snd elems step armas_make]. f_equal. lia.
  Qed.
  Lemma lv_ok : forall r, 0 <= r <= w -> vok L (lv r).
  Proof.
    intros r Hr. split; [right; reflexivity|]. split.
    - repeat split; cbn [rows cols step armas_make lv]; lia.
    - intros a Ha. apply lv_cell in Ha. apply HW. lia.
  Qed.
  Lemma lv_len : forall r, vlen (lv r) = r.
  Proof. intros r. unfold vlen, lv. cbn [rows cols armas_make]. lia. Qed.

  Definition sflags : Z := if lo then ARMAS_LOWER else Z.lor ARMAS_UPPER ARMAS_TRANSA.

  Lemma pround_wp : forall m m1 k ce (Q : Z * Z -> (Z -> T) -> Prop), 0 <= k < n -> n - 1 <= w -> 0 < w -> m.[k, k] <> 0' -> pinv m (k + 1) m1 ->
    (forall m', pinv m k m' -> Q (0, ce) m') ->
    wp (invpsd_round K E (V k k 1 1) (yv k) (V (k + 1) (k + 1) (n - k - 1) (n - k - 1)) (armas_make w 1 w W) sflags (0, ce)) L m1 Q.
  Proof.
    intros m m1 k ce Q Hk Hw Hw0 N0 HI HQ. pose proof HI as (J1 & J2 & J3). pose proof EO as (E1 & E2 & E3 & E4 & _). rewrite Sq in E3. fold n in E3, E4.
    assert (I11 : inA A k k 1 1) by (unfold inA; rewrite Sq; fold n; lia).
    assert (I22 : inA A (k + 1) (k + 1) (n - k - 1) (n - k - 1)) by (unfold inA; rewrite Sq; fold n; lia).
    assert (PP : forall i j, 0 <= i < n -> 0 <= j < n -> pos A i j) by (intros; split; [rewrite Sq|]; fold n; lia).
    assert (A11 : m1.[k, k] = m.[k, k]) by (specialize (J1 k k Hk Hk ltac:(lia)); unfold acc in J1; destruct lo; exact J1).
    destruct (yv_ok k Hk) as (Yv & Yw & Yl). destruct (lv_ok (n - k - 1) ltac:(lia)) as (Lv & Lw & Ll). destruct (V_ok L A OKA _ _ _ _ I22) as (W2 & L2).
    assert (DL : disjoint (lv (n - k - 1)) (yv k)).
    { intros a Ha Hb. apply lv_cell in Ha. destruct (HW a ltac:(lia)) as (_ & X). apply X. apply (yv_in k); auto. }
    unfold invpsd_round. cbn [fst]. change (0 <? 0) with false. cbv iota.
    wbind. apply (getu_wp L A OKA); auto. rewrite A11. destruct (eqb K m.[k, k] 0') eqn:EZ; [apply HE in EZ; contradiction|].
    set (d := m.[k, k]) in *. cbv zeta.
    assert (ES : armas_size (yv k) = n - k - 1) by (unfold armas_size, yv; destruct lo; cbn [rows cols armas_submatrix_unsafe armas_make]; lia).
    replace (armas_submatrix (armas_make w 1 w W) 0 0 (armas_size (yv k)) 1) with (lv (n - k - 1)).
    2:{ rewrite ES. unfold armas_submatrix, armas_submatrix_ext, armas_size. cbn [rows cols step elems armas_make].
        replace (w * 1 =? 0) with false by Lia.lia. change (0 <? 0) with false. change (1 <? 0) with false. cbv iota zeta.
        replace (n - k - 1 <? 0) with false by Lia.lia. replace (w <? 0) with false by Lia.lia. unfold lv, armas_make. f_equal. lia. }
    wbind. destruct (C08_copy T L m1 (lv (n - k - 1)) (yv k)) as (m2 & R1 & R2 & _ & R4); auto. exists 0, m2. split; [exact R1|]. clear R1.
    rewrite yv_len, lv_len in R2.
    assert (B1 : forall i, 0 <= i < n - k - 1 -> m2 (W + i) = acc m (k + 1 + i) k).
    { intros i Hi. specialize (R2 i Hi ltac:(lia)). rewrite lv_elt, yv_elt in R2 by lia. rewrite R2. apply J1; lia. }
    assert (B2 : forall i j, 0 <= i < n -> 0 <= j < n -> m2.[i, j] = m1.[i, j]).
    { intros i j Hi Hj. apply R4. rewrite lv_cell. intros X. destruct (HW (elems A + j * step A + i) ltac:(lia)) as (_ & Y). apply Y. exists i, j. auto. }
    wbind. destruct (C21_mvmult_sym T K HR HE (e_fuel E) (e_b1 E) (e_b2 E) L m2 0' (yv k) (div K (opp K 1') d) (V (k + 1) (k + 1) (n - k - 1) (n - k - 1)) (lv (n - k - 1)) sflags (negb lo))
      as (m3 & S1 & S2 & S3); auto.
    { unfold sflags. destruct lo; reflexivity. }
    { unfold sflags. destruct lo; reflexivity. }
    { cbn [cols armas_submatrix_unsafe armas_make]. lia. }
    { intros a (i & j & Hp & _ & Hc). apply L2. exists i, j. auto. }
    { unfold yv. destruct lo; apply (V_disj L); auto; try lia; unfold inA; rewrite Sq; fold n; lia. }
    all: try (apply disj_sym; auto; fail). all: try (rewrite yv_len; reflexivity). all: try (rewrite lv_len; reflexivity).
    exists 0, m3. split; [exact S1|]. clear S1. destruct (yv_acc k m2 m3 Hk S3) as (C1 & C2). rewrite yv_len, lv_len in S2.
    assert (B3 : forall i, 0 <= i < n - k - 1 -> m3 (W + i) = acc m (k + 1 + i) k).
    { intros i Hi. rewrite C2; [apply B1; auto|]. apply HW. lia. }
    assert (X3 : forall i, 0 <= i < n - k - 1 -> acc m3 (k + 1 + i) k =
        div K (opp K 1') d *' vsum K (n - k - 1) (fun j => sx m1 (k + 1 + i) (k + 1 + j) *' acc m (k + 1 + j) k)).
    { intros i Hi. specialize (S2 i Hi). rewrite yv_elt in S2 by lia. rewrite S2.
      rewrite (vsum_ext K _ _ (fun j => sx m1 (k + 1 + i) (k + 1 + j) *' acc m (k + 1 + j) k)); [ring|].
      intros j Hj. rewrite lv_elt, B1 by lia. f_equal. unfold sym, sx, acc. rewrite !V_elt.
      destruct lo; cbn [negb].
      - destruct (j <=? i) eqn:X; [replace (Z.max (k + 1 + i) (k + 1 + j)) with (k + 1 + i) by Lia.lia; replace (Z.min (k + 1 + i) (k + 1 + j)) with (k + 1 + j) by Lia.lia
          |replace (Z.max (k + 1 + i) (k + 1 + j)) with (k + 1 + j) by Lia.lia; replace (Z.min (k + 1 + i) (k + 1 + j)) with (k + 1 + i) by Lia.lia]; apply B2; lia.
      - destruct (i <=? j) eqn:X; [replace (Z.max (k + 1 + i) (k + 1 + j)) with (k + 1 + j) by Lia.lia; replace (Z.min (k + 1 + i) (k + 1 + j)) with (k + 1 + i) by Lia.lia
          |replace (Z.max (k + 1 + i) (k + 1 + j)) with (k + 1 + i) by Lia.lia; replace (Z.min (k + 1 + i) (k + 1 + j)) with (k + 1 + j) by Lia.lia]; apply B2; lia. }
    wbind. unfold l_dot. eexists _, m3. split.
    { apply (C14_dot T K HR (e_fuel E) L m3 (e_b1 E) (e_opt E) (yv k) (lv (n - k - 1))); auto; rewrite yv_len; [rewrite lv_len; reflexivity|lia]. }
    rewrite yv_len.
    rewrite (vsum_ext K _ _ (fun p => acc m3 (k + 1 + p) k *' acc m (k + 1 + p) k)) by (intros p Hp; rewrite yv_elt, lv_elt, B3 by lia; reflexivity).
    set (u := vsum K (n - k - 1) _).
    wbind. apply (setu_wp E L cb A EO OKA); auto. intros m4 D1 (D2 & D3). apply wp_ret. apply HQ.
    assert (F4 : forall i j, 0 <= i < n -> 0 <= j < n -> ~ (i = k /\ j = k) -> acc m4 i j = acc m3 i j).
    { intros i j Hi Hj Hne. unfold acc. destruct lo; apply D2; try (apply PP; auto); unfold inb; lia. }
    assert (F3 : forall i j, 0 <= i < n -> 0 <= j < n -> ~ (j = k /\ k < i) -> acc m3 i j = acc m1 i j).
    { intros i j Hi Hj Hne. rewrite C1 by auto. unfold acc. destruct lo; apply B2; auto. }
    assert (X1 : sx m4 k k = div K (div K 1' d -' u) d).
    { unfold sx. rewrite Z.max_id, Z.min_id. unfold acc. destruct lo; exact D1. }
    assert (X2 : forall i, 0 <= i < n - k - 1 -> sx m4 (k + 1 + i) k = acc m3 (k + 1 + i) k /\ sx m4 k (k + 1 + i) = acc m3 (k + 1 + i) k).
    { intros i Hi. unfold sx. rewrite (Z.max_comm k), (Z.min_comm k). replace (Z.max (k + 1 + i) k) with (k + 1 + i) by lia. replace (Z.min (k + 1 + i) k) with k by lia.
      split; apply F4; lia. }
    assert (X4 : forall i j, 0 <= i < n - k - 1 -> 0 <= j < n - k - 1 -> sx m4 (k + 1 + i) (k + 1 + j) = sx m1 (k + 1 + i) (k + 1 + j)).
    { intros i j Hi Hj. unfold sx. rewrite F4, F3 by lia. reflexivity. }
    assert (Lk : lf m k k = d) by (unfold lf; rewrite Z.leb_refl; unfold acc, d; destruct lo; reflexivity).
    assert (Lp : forall p, 0 <= p < n - k - 1 -> lf m (k + 1 + p) k = acc m (k + 1 + p) k) by (intros p Hp; unfold lf; replace (k <=? k + 1 + p) with true by Lia.lia; reflexivity).
    assert (V1 : forall f, vsum K 1 f = f 0) by (intros f; change 1 with (0 + 1); rewrite vsum_S, vsum_0 by lia; ring).
    apply (pstep m k 1 m1 m4); auto; try lia.
    - intros i j Hi Hj. assert (j = 0) as -> by lia. unfold xlb. rewrite V1. rewrite !Z.add_0_r, !Z.add_assoc, Lk. destruct (X2 i Hi) as (-> & _). rewrite X3 by auto.
      rewrite (vsum_ext K (n - k - 1) (fun p => sx m4 (k + 1 + i) (k + (1 + p)) *' lf m (k + (1 + p)) k) (fun j => sx m1 (k + 1 + i) (k + 1 + j) *' acc m (k + 1 + j) k)).
      2:{ intros p Hp. rewrite !Z.add_assoc. rewrite X4, Lp by lia. reflexivity. }
      field. exact N0.
    - intros i j Hi Hj. assert (i = 0) as -> by lia. assert (j = 0) as -> by lia. rewrite V1. unfold xlb. rewrite V1. rewrite !Z.add_0_r, Lk, X1.
      rewrite (vsum_ext K (n - k - 1) (fun p => sx m4 k (k + (1 + p)) *' lf m (k + (1 + p)) k) (fun p => acc m3 (k + 1 + p) k *' acc m (k + 1 + p) k)).
      2:{ intros p Hp. rewrite !Z.add_assoc. rewrite Lp by lia. destruct (X2 p Hp) as (_ & ->). reflexivity. }
      fold u. unfold PInvM.dlt. change (0 =? 0) with true. cbv iota. field. exact N0.
    - intros i j Hi Hj Hne. rewrite F4, F3 by lia. reflexivity.
    - intros a X Y Z. rewrite D3 by auto. rewrite C2 by auto. apply R4. rewrite lv_cell. lia.
  Qed.

  Lemma punblk_wp : forall m ce, n - 1 <= w -> (0 < n -> 0 < w) -> (forall i, 0 <= i < n -> m.[i, i] <> 0') ->
    wp (if lo then unblk_invpsd_lower K E A (armas_make w 1 w W) ce else unblk_invpsd_upper K E A (armas_make w 1 w W) ce) L m
      (fun s m' => s = (0, ce) /\ pinv m 0 m').
  Proof.
    intros m ce Hw Hw0 NZ. pose proof EO as (_ & _ & Hf1 & Hf2 & _). pose proof OKA as ((W1 & W2 & W3) & _). fold n in W2, Hf2.
    assert (X : wp (up_loop (e_fuel E) A 1 (fun t s => invpsd_round K E (A11 t) (if lo then A21 t else A12 t) (A22 t) (armas_make w 1 w W) sflags s) (subm A 0 0 n n) (0, ce)) L m
      (fun s m' => s = (0, ce) /\ pinv m 0 m')).
    { apply (wp_up L A 1 _ (fun k st m' => st = (0, ce) /\ pinv m k m')); try lia.
      - split; [reflexivity|apply pinv_n].
      - intros q s m1 Hq (-> & HI). cbv zeta. replace (Z.min 1 q) with 1 by lia. unfold b3at. cbn [A11 A12 A21 A22]. rewrite !Sq. fold n.
        set (k := q - 1). replace q with (k + 1) in * by (unfold k; lia). clearbody k.
        change (if lo then subm A (k + 1) k (n - k - 1) 1 else subm A k (k + 1) 1 (n - k - 1)) with (yv k).
        apply (pround_wp m m1 k ce); auto; try lia; [apply Hw0; lia|apply NZ; lia].
      - auto. }
    unfold unblk_invpsd_lower, unblk_invpsd_upper.
    replace (ATL (mat_partition_2x2 A 0 0 PBottom)) with (subm A 0 0 n n) by (unfold mat_partition_2x2; cbn [ATL]; rewrite ?Z.sub_0_r, Sq; reflexivity).
    unfold sflags in X. destruct lo; exact X.
  Qed.
End P.
