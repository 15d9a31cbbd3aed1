(* PSpVec.v: lemmas about the products of a compressed matrix with dense vectors. *)
From Coq Require Import ZArith Lia List Bool Ring.
From Verif Require Import Mem MView MNum MSparse MSpVec SpecView SpecNum SpecSparse SpecSpVec Hoare PSum PFrame PSparse PSpconv.
Import ListNotations.
Local Open Scope Z_scope.
Ltac lia := Lia.lia.


Lemma contig_velt : forall T (m : Z -> T) x k, contiguous x -> 0 <= k < vlen x -> velt m x k = m (elems x + k).
Proof.
  intros T m x k H Hk. unfold velt, elt, vec_pos, vlen in *. destruct (Z.eqb_spec (rows x) 1); cbn [fst snd].
  - destruct H as [H|[_ H]]; f_equal; [assert (k = 0) by nia; subst k; lia|rewrite H; lia].
  - destruct H as [H|[H _]]; [|congruence]. f_equal. lia.
Qed.

Lemma contig_cell : forall x a, contiguous x -> cell x a <-> elems x <= a < elems x + vlen x.
Proof.
  intros x a H. unfold cell, pos, vlen. split.
  - intros (i & j & Hp & ->). destruct Hp as [Hi Hj]. destruct H as [H|[H H']].
    + assert (j = 0) by lia. subst j. nia.
    + assert (i = 0) by lia. subst i. rewrite H, H' in *. lia.
  - intros Ha. destruct H as [H|[H H']].
    + exists (a - elems x), 0. rewrite H in *. split; [split; lia|lia].
    + exists 0, (a - elems x). rewrite H, H' in *. split; [split; lia|lia].
Qed.

Section Lines.
  Context {T : Type} (K : num T).
  Hypothesis HR : is_ring K.
  Let HR' : ring_theory (zero K) (one K) (add K) (mul K) (sub K) (opp K) eq := HR.
  Add Ring KringV : HR'.
  Local Notation "x +' y" := (add K x y) (at level 50, left associativity).
  Local Notation "x -' y" := (sub K x y) (at level 50, left associativity).
  Local Notation "x *' y" := (mul K x y) (at level 40, left associativity).

  (* sums over lo <= p < hi *)
  Definition psum (lo hi : Z) (f : Z -> T) : T := vsum K (hi - lo) (fun t => f (lo + t)).

  Lemma psum_nil : forall lo hi f, hi <= lo -> psum lo hi f = zero K.
  Proof. intros. apply vsum_0. lia. Qed.
  Lemma psum_snoc : forall lo hi f, lo <= hi -> psum lo (hi + 1) f = psum lo hi f +' f hi.
  Proof.
    intros lo hi f H. unfold psum. replace (hi + 1 - lo) with (hi - lo + 1) by lia.
    rewrite vsum_S by lia. do 2 f_equal. lia.
  Qed.
  Lemma psum_ext : forall lo hi f g, (forall p, lo <= p < hi -> f p = g p) -> psum lo hi f = psum lo hi g.
  Proof. intros lo hi f g H. apply vsum_ext. intros. apply H. lia. Qed.
  Lemma psum_split : forall lo mid hi f, lo <= mid <= hi -> psum lo hi f = psum lo mid f +' psum mid hi f.
  Proof.
    intros lo mid hi f H. unfold psum. replace (hi - lo) with ((mid - lo) + (hi - mid)) by lia.
    rewrite (vsum_split K HR) by lia. f_equal. apply vsum_ext. intros. f_equal. lia.
  Qed.
  Lemma psum_cons : forall lo hi f, lo < hi -> psum lo hi f = f lo +' psum (lo + 1) hi f.
  Proof.
    intros lo hi f H. rewrite (psum_split lo (lo + 1) hi) by lia. rewrite psum_snoc, psum_nil by lia. ring.
  Qed.
  Lemma psum_zero : forall lo hi f, (forall p, lo <= p < hi -> f p = zero K) -> psum lo hi f = zero K.
  Proof. intros lo hi f H. apply (vsum_zero K HR). intros. apply H. lia. Qed.
  Lemma psum_one : forall lo hi p f, lo <= p < hi -> (forall q, lo <= q < hi -> q <> p -> f q = zero K) -> psum lo hi f = f p.
  Proof.
    intros lo hi p f Hp H. unfold psum. rewrite (vsum_one K HR _ (p - lo)) by (try lia; intros; apply H; lia). f_equal. lia.
  Qed.
  Lemma psum_mul_l : forall lo hi c f, psum lo hi (fun p => c *' f p) = c *' psum lo hi f.
  Proof. intros. unfold psum. rewrite <- (vsum_mul_l K HR). reflexivity. Qed.

  (* the element i of line j: the sum of the values stored for that index *)
  Definition lval (A : sparse T) (j i : Z) : T :=
    psum (aget (sp_ptr A) j) (aget (sp_ptr A) (j + 1)) (fun p => if aget (sp_ix A) p =? i then aget (sp_v A) p else zero K).

  Lemma lsum_app : forall i j (a b : list (Z * Z * T)),
    fold_right (fun e s => if at_pos i j e then snd e +' s else s) (zero K) (a ++ b) =
    fold_right (fun e s => if at_pos i j e then snd e +' s else s) (zero K) a +'
    fold_right (fun e s => if at_pos i j e then snd e +' s else s) (zero K) b.
  Proof.
    intros i j a b. induction a as [|e a IH]; cbn [app fold_right]; [ring|]. rewrite IH. destruct (at_pos i j e); ring.
  Qed.

  Lemma lsum_zr : forall i j lo (f : Z -> Z * Z * T) hi, lo <= hi ->
    fold_right (fun e s => if at_pos i j e then snd e +' s else s) (zero K) (map f (zr lo hi)) =
    psum lo hi (fun p => if at_pos i j (f p) then snd (f p) else zero K).
  Proof.
    intros i j lo f hi H. replace hi with (lo + (hi - lo)) by lia. assert (0 <= hi - lo) by lia.
    revert H0. generalize (hi - lo). apply natlike_ind.
    - rewrite Z.add_0_r. rewrite zr_nil, psum_nil by lia. reflexivity.
    - intros n Hn IH. unfold Z.succ. rewrite Z.add_assoc, zr_snoc, map_app, lsum_app, IH, psum_snoc by lia.
      cbn [map fold_right]. destruct (at_pos i j (f (lo + n))); ring.
  Qed.

  Lemma lsum_flat : forall i j (g : Z -> list (Z * Z * T)) n, 0 <= n ->
    fold_right (fun e s => if at_pos i j e then snd e +' s else s) (zero K) (flat_map g (zr 0 n)) =
    vsum K n (fun l => fold_right (fun e s => if at_pos i j e then snd e +' s else s) (zero K) (g l)).
  Proof.
    intros i j g. apply natlike_ind.
    - rewrite zr_nil, vsum_0 by lia. reflexivity.
    - intros n Hn IH. unfold Z.succ. rewrite zr_snoc, flat_map_snoc, lsum_app, IH, vsum_S by lia. reflexivity.
  Qed.

  Lemma value_lines : forall (A : sparse T) i j, valid A -> sp_kind A <> COO -> 0 <= i < sp_rows A -> 0 <= j < sp_cols A ->
    value K A i j = match sp_kind A with CSR => lval A i j | _ => lval A j i end.
  Proof.
    intros A i j V Hk Hi Hj. unfold value, entries. pose proof V as V'. unfold valid in V'.
    destruct V' as (_ & _ & _ & V'). destruct (sp_kind A) eqn:EK; try congruence; destruct V' as (Hn & _ & _ & _ & _ & _ & Hm & _);
    unfold nlines in *; rewrite EK in *; rewrite lsum_flat by lia.
    - rewrite (vsum_one K HR _ j); [|lia|].
      + unfold line_of. rewrite map_map. cbn [fst snd]. rewrite lsum_zr by (apply Hm; lia).
        unfold lval. apply psum_ext. intros p Hp. unfold at_pos. cbn [fst snd]. rewrite Z.eqb_refl, andb_true_r. reflexivity.
      + intros k Hk' Hne. unfold line_of. rewrite map_map. cbn [fst snd]. rewrite lsum_zr by (apply Hm; lia).
        apply psum_zero. intros p Hp. unfold at_pos. cbn [fst snd]. destruct (Z.eqb_spec k j); [lia|]. rewrite andb_false_r. reflexivity.
    - rewrite (vsum_one K HR _ i); [|lia|].
      + unfold line_of. rewrite map_map. cbn [fst snd]. rewrite lsum_zr by (apply Hm; lia).
        unfold lval. apply psum_ext. intros p Hp. unfold at_pos. cbn [fst snd]. rewrite Z.eqb_refl. reflexivity.
      + intros k Hk' Hne. unfold line_of. rewrite map_map. cbn [fst snd]. rewrite lsum_zr by (apply Hm; lia).
        apply psum_zero. intros p Hp. unfold at_pos. cbn [fst snd]. destruct (Z.eqb_spec k i); [lia|]. reflexivity.
  Qed.

  (* the sum over a line as a sum over indices *)
  Lemma line_dot : forall (A : sparse T) (f : Z -> T) j w, (forall p, aget (sp_ptr A) j <= p < aget (sp_ptr A) (j + 1) -> 0 <= aget (sp_ix A) p < w) ->
    vsum K w (fun i => lval A j i *' f i) =
    psum (aget (sp_ptr A) j) (aget (sp_ptr A) (j + 1)) (fun p => aget (sp_v A) p *' f (aget (sp_ix A) p)).
  Proof.
    intros A f j w H. unfold lval, psum.
    erewrite vsum_ext; [|intros i Hi; rewrite <- (vsum_mul_r K HR); reflexivity].
    rewrite (vsum_swap K HR). apply vsum_ext. intros t Ht. cbn beta.
    set (p := aget (sp_ptr A) j + t). pose proof (H p ltac:(subst p; lia)) as Hp.
    rewrite (vsum_one K HR _ (aget (sp_ix A) p)); [rewrite Z.eqb_refl; reflexivity|lia|].
    intros k _ Hne. destruct (Z.eqb_spec (aget (sp_ix A) p) k); [congruence|ring].
  Qed.

  (* what [valid] says about the lines *)
  Definition P (A : sparse T) (j : Z) : Z := aget (sp_ptr A) j.
  Record lines (A : sparse T) (n w : Z) : Prop := mklines {
    ln_n : 0 <= n; ln_w : 0 <= w;
    ln_ptr : alen (sp_ptr A) = n + 1;
    ln_lo : forall j, 0 <= j <= n -> 0 <= P A j <= alen (sp_ix A);
    ln_v : alen (sp_v A) = alen (sp_ix A);
    ln_mono : forall j, 0 <= j < n -> P A j <= P A (j + 1);
    ln_ix : forall j p, 0 <= j < n -> P A j <= p < P A (j + 1) -> 0 <= aget (sp_ix A) p < w }.

  Lemma valid_linesr : forall (A : sparse T), valid A -> sp_kind A <> COO -> lines A (nlines A) (linelen A).
  Proof.
    intros A V Hk. pose proof V as V'. unfold valid in V'. destruct V' as (V1 & V2 & V3 & V').
    assert (X : sp_nptr A = nlines A /\ alen (sp_v A) = sp_size A /\ alen (sp_ix A) = sp_size A /\
           alen (sp_ptr A) = nlines A + 1 /\ aget (sp_ptr A) 0 = 0 /\ aget (sp_ptr A) (nlines A) = sp_nnz A /\
           (forall j, 0 <= j < nlines A -> aget (sp_ptr A) j <= aget (sp_ptr A) (j + 1)) /\
           (forall p, 0 <= p < sp_nnz A -> 0 <= aget (sp_ix A) p < linelen A)).
    { destruct (sp_kind A); try congruence; exact V'. } clear V'. destruct X as (X1 & X2 & X3 & X4 & X5 & X6 & X7 & X8).
    assert (N : 0 <= nlines A) by (unfold nlines; destruct (sp_kind A); auto).
    assert (B : forall j, 0 <= j <= nlines A -> 0 <= P A j <= sp_nnz A).
    { intros j Hj. unfold P. pose proof (valid_mono A V Hk 0 j ltac:(lia) ltac:(lia)). pose proof (valid_mono A V Hk j (nlines A) ltac:(lia) ltac:(lia)). lia. }
    constructor; auto; try lia.
    - unfold linelen; destruct (sp_kind A); auto.
    - intros j Hj. specialize (B j Hj). lia.
    - intros j p Hj Hp. apply X8. pose proof (B j ltac:(lia)). pose proof (B (j + 1) ltac:(lia)). lia.
  Qed.
End Lines.

Section Gemv.
  Context {T : Type} (K : num T).
  Hypothesis HR : is_ring K.
  Let HR' : ring_theory (zero K) (one K) (add K) (mul K) (sub K) (opp K) eq := HR.
  Add Ring KringV2 : HR'.
  Local Notation "x +' y" := (add K x y) (at level 50, left associativity).
  Local Notation "x -' y" := (sub K x y) (at level 50, left associativity).
  Local Notation "x *' y" := (mul K x y) (at level 40, left associativity).
  Local Notation psum := (psum K).
  Local Notation lval := (lval K).

  (* the cells b .. b+n-1 are allocated *)
  Definition reg (L : Z -> bool) (b n : Z) : Prop := forall k, 0 <= k < n -> L (b + k) = true.
  Definition out (b n a : Z) : Prop := a < b \/ b + n <= a.

  Lemma rd_wp : forall L b n k (m : Z -> T) (Q : T -> (Z -> T) -> Prop), reg L b n -> 0 <= k < n ->
    Q (m (b + k)) m -> wp (rd (b + k)) L m Q.
  Proof. intros L b n k m Q H Hk HQ. apply wp_rd; auto. Qed.

  Definition mset (m : Z -> T) (a : Z) (v : T) : Z -> T := fun c => if c =? a then v else m c.
  Lemma mset_same : forall m a v, mset m a v a = v.
  Proof. intros. unfold mset. rewrite Z.eqb_refl. reflexivity. Qed.
  Lemma mset_other : forall m a v c, c <> a -> mset m a v c = m c.
  Proof. intros. unfold mset. destruct (Z.eqb_spec c a); [contradiction|reflexivity]. Qed.

  Lemma wr_wp : forall L b n k v (m : Z -> T) (Q : unit -> (Z -> T) -> Prop), reg L b n -> 0 <= k < n ->
    Q tt (mset m (b + k) v) -> wp (wr (b + k) v) L m Q.
  Proof. intros L b n k v m Q H Hk HQ. apply wp_wr; auto. Qed.

  Lemma addto_wp : forall L b n k v (m : Z -> T) (Q : unit -> (Z -> T) -> Prop), reg L b n -> 0 <= k < n ->
    Q tt (mset m (b + k) (m (b + k) +' v)) -> wp (addto K (b + k) v) L m Q.
  Proof.
    intros L b n k v m Q H Hk HQ. unfold addto. wbind. eapply rd_wp; eauto. eapply wr_wp; eauto.
  Qed.

  Lemma scale_wp : forall L n y beta m, reg L y n -> 0 <= n ->
    wp (sp_scale K n y beta) L m (fun _ m' => (forall i, 0 <= i < n -> m' (y + i) = beta *' m (y + i)) /\
      (forall a, out y n a -> m' a = m a)).
  Proof.
    intros L n y beta m HL Hn. unfold sp_scale.
    apply wp_for1 with (I := fun k m' => (forall i, 0 <= i < k -> m' (y + i) = beta *' m (y + i)) /\
      (forall a, out y k a -> m' a = m a)).
    - split; [intros; lia|auto].
    - intros k m1 Hk (I1 & I2). wbind. eapply rd_wp; eauto. eapply wr_wp; eauto. split.
      + intros i Hi. destruct (Z.eq_dec i k) as [->|Hne].
        * rewrite mset_same. rewrite (I2 (y + k)) by (unfold out; lia). ring.
        * rewrite mset_other by lia. apply I1. lia.
      + intros a Ha. unfold out in Ha. rewrite mset_other by lia. apply I2. unfold out. lia.
    - intros m1. rewrite Z.max_r by lia. auto.
  Qed.

  Lemma scatter_wp : forall L (A : sparse T) n w y x alpha m, lines A n w -> reg L y w -> reg L x n ->
    (forall i j, 0 <= i < w -> 0 <= j < n -> y + i <> x + j) ->
    wp (sp_scatter K n y alpha A x) L m (fun _ m' =>
      (forall i, 0 <= i < w -> m' (y + i) = m (y + i) +' alpha *' vsum K n (fun j => lval A j i *' m (x + j))) /\
      (forall a, out y w a -> m' a = m a)).
  Proof.
    intros L A n w y x alpha m HA HY HX HD. unfold sp_scatter. pose proof (ln_n _ _ _ HA). pose proof (ln_w _ _ _ HA).
    apply wp_for1 with (I := fun k m' =>
      (forall i, 0 <= i < w -> m' (y + i) = m (y + i) +' alpha *' vsum K k (fun j => lval A j i *' m (x + j))) /\
      (forall a, out y w a -> m' a = m a)).
    - split; [|auto]. intros i Hi. rewrite vsum_0 by lia. ring.
    - intros j m1 Hj (I1 & I2).
      assert (Ex : m1 (x + j) = m (x + j)).
      { apply I2. unfold out. destruct (Z_lt_dec (x + j) y); [lia|]. destruct (Z_le_dec (y + w) (x + j)); [lia|].
        exfalso. apply (HD (x + j - y) j); lia. }
      pose proof (ln_lo _ _ _ HA j ltac:(lia)) as B0. pose proof (ln_lo _ _ _ HA (j + 1) ltac:(lia)) as B1.
      pose proof (ln_mono _ _ _ HA j ltac:(lia)) as Bm. unfold P in *.
      wbind. eapply rd_wp; eauto. rewrite Ex.
      wbind. apply aread_wp; [rewrite (ln_ptr _ _ _ HA); lia|]. wbind. apply aread_wp; [rewrite (ln_ptr _ _ _ HA); lia|].
      set (ax := alpha *' m (x + j)). set (p0 := aget (sp_ptr A) j) in *. set (p1 := aget (sp_ptr A) (j + 1)) in *.
      apply wp_for1 with (I := fun q m' =>
        (forall i, 0 <= i < w -> m' (y + i) = m1 (y + i) +' ax *' psum p0 q (fun p => if aget (sp_ix A) p =? i then aget (sp_v A) p else zero K)) /\
        (forall a, out y w a -> m' a = m a)).
      + split; [|auto]. intros i Hi. rewrite psum_nil by lia. ring.
      + intros q m2 Hq (J1 & J2). wbind. apply aread_wp; [lia|]. wbind. apply aread_wp; [rewrite (ln_v _ _ _ HA); lia|].
        pose proof (ln_ix _ _ _ HA j q Hj ltac:(unfold P; fold p0 p1; lia)) as Hix.
        eapply addto_wp; eauto. split.
        * intros i Hi. rewrite psum_snoc by lia. destruct (Z.eqb_spec (aget (sp_ix A) q) i) as [->|Hne].
          -- rewrite mset_same, J1 by lia. ring.
          -- rewrite mset_other, J1 by lia. ring.
        * intros a Ha. unfold out in Ha. rewrite mset_other by lia. apply J2. auto.
      + intros m2. rewrite Z.max_r by lia. intros (J1 & J2). split; [|exact J2].
        intros i Hi. rewrite J1, I1, vsum_S by lia. unfold lval, PSpVec.lval. fold p0 p1. unfold ax. ring.
    - intros m1. rewrite Z.max_r by lia. auto.
  Qed.

  Lemma gather_wp : forall L (A : sparse T) n w y x alpha beta m, lines A n w -> reg L y n -> reg L x w ->
    (forall i j, 0 <= i < n -> 0 <= j < w -> y + i <> x + j) ->
    wp (sp_gather K n beta y alpha A x) L m (fun _ m' =>
      (forall j, 0 <= j < n -> m' (y + j) = beta *' m (y + j) +' alpha *' vsum K w (fun i => lval A j i *' m (x + i))) /\
      (forall a, out y n a -> m' a = m a)).
  Proof.
    intros L A n w y x alpha beta m HA HY HX HD. unfold sp_gather. pose proof (ln_n _ _ _ HA). pose proof (ln_w _ _ _ HA).
    apply wp_for1 with (I := fun k m' =>
      (forall j, 0 <= j < k -> m' (y + j) = beta *' m (y + j) +' alpha *' vsum K w (fun i => lval A j i *' m (x + i))) /\
      (forall a, out y k a -> m' a = m a)).
    - split; [intros; lia|auto].
    - intros j m1 Hj (I1 & I2).
      assert (Ex : forall i, 0 <= i < w -> m1 (x + i) = m (x + i)).
      { intros i Hi. apply I2. unfold out. destruct (Z_lt_dec (x + i) y); [lia|]. destruct (Z_le_dec (y + n) (x + i)); [lia|].
        exfalso. apply (HD (x + i - y) i); lia. }
      pose proof (ln_lo _ _ _ HA j ltac:(lia)) as B0. pose proof (ln_lo _ _ _ HA (j + 1) ltac:(lia)) as B1.
      pose proof (ln_mono _ _ _ HA j ltac:(lia)) as Bm.
      wbind. apply aread_wp; [rewrite (ln_ptr _ _ _ HA); lia|]. wbind. apply aread_wp; [rewrite (ln_ptr _ _ _ HA); lia|].
      wbind. unfold P in *.
      apply wp_for1_acc with (I := fun q s m' => m' = m1 /\
        s = psum (aget (sp_ptr A) j) q (fun p => aget (sp_v A) p *' m (x + aget (sp_ix A) p))).
      + split; [auto|]. rewrite psum_nil by lia. reflexivity.
      + intros q s m2 Hq (-> & ->). wbind. apply aread_wp; [rewrite (ln_v _ _ _ HA); lia|]. wbind. apply aread_wp; [lia|].
        pose proof (ln_ix _ _ _ HA j q Hj ltac:(unfold P; lia)) as Hix.
        wbind. eapply rd_wp; eauto. apply wp_ret. split; [auto|]. rewrite psum_snoc by lia. rewrite Ex by lia. reflexivity.
      + intros s m2. rewrite Z.max_r by lia. intros (-> & ->). wbind. eapply rd_wp; eauto. eapply wr_wp; eauto.
        rewrite <- (line_dot K HR A (fun i => m (x + i)) j w) by (intros p Hp; apply (ln_ix _ _ _ HA j p); unfold P; auto).
        split.
        * intros i Hi. destruct (Z.eq_dec i j) as [->|Hne].
          -- rewrite mset_same. rewrite (I2 (y + j)) by (unfold out; lia). reflexivity.
          -- rewrite mset_other by lia. apply I1. lia.
        * intros a Ha. unfold out in Ha. rewrite mset_other by lia. apply I2. unfold out. lia.
    - intros m1. rewrite Z.max_r by lia. auto.
  Qed.
End Gemv.
