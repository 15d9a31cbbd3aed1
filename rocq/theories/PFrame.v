(* PFrame.v: reasoning with element values and only_changes instead of addresses. *)
From Coq Require Import ZArith Lia Bool Ring ZifyBool.
From Verif Require Import Mem MView SpecView PView PSub Hoare MFlags MCopy PUpd PCopy
  MNum SpecNum MBlas1 PSum PBlas1 MElem PElem SpecPivot MPivot PPivot MSort PSort MBlas2 PMvec PBlas2.
Local Open Scope Z_scope.
Local Open Scope prog_scope.

(* lia after dropping the hypotheses that are not comparisons: much faster in large contexts *)
Ltac arith_prop P := lazymatch P with
  | _ <= _ => idtac | _ < _ => idtac | _ >= _ => idtac | _ > _ => idtac
  | @eq Z _ _ => idtac | @eq nat _ _ => idtac
  | @eq bool (_ <? _) _ => idtac | @eq bool (_ <=? _) _ => idtac | @eq bool (_ =? _) _ => idtac
  | @eq bool (_ || _) _ => idtac | @eq bool (_ && _) _ => idtac | @eq bool (negb _) _ => idtac
  | @eq bool ?x _ => tryif is_var x then idtac else fail
  | ?A /\ ?B => arith_prop A; arith_prop B
  | ?A \/ ?B => arith_prop A; arith_prop B
  | ~ ?A => arith_prop A
  end.
Ltac zclear := repeat match goal with H : ?P |- _ =>
  lazymatch type of P with Prop => tryif arith_prop P then fail else clear H end end.
Ltac zlia := zclear; lia.

Definition vok (L : Z -> bool) (x : view) : Prop := isvec x /\ wf x /\ allocated L x.
Definition mok (L : Z -> bool) (A : view) : Prop := wf A /\ allocated L A.

Lemma disj_sym : forall A B, disjoint A B -> disjoint B A.
Proof. intros A B H a Ha Hb. exact (H a Hb Ha). Qed.

Section F.
  Context {T : Type}.
  Implicit Types (m : Z -> T) (L : Z -> bool).

  Lemma oc_refl : forall A m, only_changes A m m.
  Proof. intros A m a _. reflexivity. Qed.

  Lemma oc_mono : forall A B m m', (forall a, cell B a -> cell A a) -> only_changes B m m' -> only_changes A m m'.
  Proof. intros A B m m' H Ho a Ha. apply Ho. intros Hb. apply Ha, H, Hb. Qed.

  Lemma oc_elt : forall Y A m m' i j, only_changes Y m m' -> disjoint Y A -> pos A i j -> elt m' A i j = elt m A i j.
  Proof.
    intros Y A m m' i j Ho Hd Hp. apply Ho. intros Hc. apply (Hd _ Hc). exists i, j. split; auto.
  Qed.

  Lemma oc_velt : forall Y x m m' k, only_changes Y m m' -> disjoint Y x -> isvec x -> wf x -> 0 <= k < vlen x ->
    velt m' x k = velt m x k.
  Proof.
    intros Y x m m' k Ho Hd V W Hk. rewrite !velt_vad. apply Ho. intros Hc. apply (Hd _ Hc). apply vad_cell; auto.
  Qed.

  Lemma subv_velt : forall m x n len k, isvec x -> wf x -> 0 <= n -> 0 <= len -> n + len <= vlen x -> 0 <= k < len ->
    velt m (armas_subvector_unsafe x n len) k = velt m x (n + k).
  Proof. intros. rewrite !velt_vad. f_equal. apply subv_vad; auto. Qed.

  Lemma subm_elt : forall m A r c nr nc i j, elt m (armas_submatrix_unsafe A r c nr nc) i j = elt m A (r + i) (c + j).
  Proof. intros. rewrite !elt_mad, sub_mad. reflexivity. Qed.

  Lemma subv_cell : forall x n len k, isvec x -> wf x -> 0 <= n -> 0 <= len -> n + len <= vlen x -> 0 <= k < vlen x ->
    cell (armas_subvector_unsafe x n len) (vad x k) -> n <= k < n + len.
  Proof.
    intros x n len k V W Hn Hl Hb Hk Hc.
    destruct (subvec_unsafe_vshows x n len) as (_ & _ & _ & H4 & _); auto.
    apply H4 in Hc as (k' & Hk' & E). change (vad x k = vad x k') in E.
    apply (vad_inj x V W) in E; [subst; auto|exact Hk|unfold vdom; lia].
  Qed.

  Lemma subm_cell : forall A r c nr nc i j, wf A -> 0 <= r -> 0 <= c -> 0 <= nr -> 0 <= nc ->
    r + nr <= rows A -> c + nc <= cols A -> pos A i j ->
    cell (armas_submatrix_unsafe A r c nr nc) (mad A (i, j)) -> r <= i < r + nr /\ c <= j < c + nc.
  Proof.
    intros A r c nr nc i j W H1 H2 H3 H4 H5 H6 Hp (i' & j' & (Hi & Hj) & E).
    change (mad A (i, j) = mad (armas_submatrix_unsafe A r c nr nc) (i', j')) in E. rewrite sub_mad in E.
    cbn in Hi, Hj. apply (mad_inj A W) in E; [|exact Hp|unfold mdom, pos; cbn [fst snd]; lia].
    injection E as -> ->. lia.
  Qed.

  (* elements outside of the changed part *)
  Lemma oc_subv : forall x n len m m' k, isvec x -> wf x -> 0 <= n -> 0 <= len -> n + len <= vlen x ->
    only_changes (armas_subvector_unsafe x n len) m m' -> 0 <= k < vlen x -> k < n \/ n + len <= k ->
    velt m' x k = velt m x k.
  Proof.
    intros x n len m m' k V W Hn Hl Hb Ho Hk Hout. rewrite !velt_vad. apply Ho. intros Hc.
    apply subv_cell in Hc; auto; lia.
  Qed.

  Lemma oc_subm : forall A r c nr nc m m' i j, wf A -> 0 <= r -> 0 <= c -> 0 <= nr -> 0 <= nc ->
    r + nr <= rows A -> c + nc <= cols A -> only_changes (armas_submatrix_unsafe A r c nr nc) m m' ->
    pos A i j -> i < r \/ r + nr <= i \/ j < c \/ c + nc <= j -> elt m' A i j = elt m A i j.
  Proof.
    intros A r c nr nc m m' i j W H1 H2 H3 H4 H5 H6 Ho Hp Hout. rewrite !elt_mad. apply Ho. intros Hc.
    apply subm_cell in Hc; auto; lia.
  Qed.

  Lemma subv_disj : forall x n len n' len', isvec x -> wf x -> 0 <= n -> 0 <= len -> n + len <= vlen x ->
    0 <= n' -> 0 <= len' -> n' + len' <= vlen x -> n + len <= n' \/ n' + len' <= n ->
    disjoint (armas_subvector_unsafe x n len) (armas_subvector_unsafe x n' len').
  Proof.
    intros x n len n' len' V W Hn Hl Hb Hn' Hl' Hb' Hd a Ha Ha'.
    destruct (subvec_unsafe_vshows x n len) as (_ & _ & _ & H4 & _); auto.
    apply H4 in Ha as (k & Hk & E). change (a = vad x k) in E. subst a.
    apply subv_cell in Ha'; auto; lia.
  Qed.

  Lemma subm_disj : forall A r c nr nc r' c' nr' nc', wf A -> 0 <= r -> 0 <= c -> 0 <= nr -> 0 <= nc ->
    r + nr <= rows A -> c + nc <= cols A -> 0 <= r' -> 0 <= c' -> 0 <= nr' -> 0 <= nc' ->
    r' + nr' <= rows A -> c' + nc' <= cols A ->
    r + nr <= r' \/ r' + nr' <= r \/ c + nc <= c' \/ c' + nc' <= c ->
    disjoint (armas_submatrix_unsafe A r c nr nc) (armas_submatrix_unsafe A r' c' nr' nc').
  Proof.
    intros A r c nr nc r' c' nr' nc' W H1 H2 H3 H4 H5 H6 H7 H8 H9 H10 H11 H12 Hd a (i & j & (Hi & Hj) & E) Ha'.
    cbn in Hi, Hj. change (a = mad (armas_submatrix_unsafe A r c nr nc) (i, j)) in E. rewrite sub_mad in E. subst a.
    apply subm_cell in Ha'; auto; try lia. split; lia.
  Qed.

  Lemma vok_sub : forall L x n len, vok L x -> 0 <= n -> 0 <= len -> n + len <= vlen x ->
    vok L (armas_subvector_unsafe x n len).
  Proof. intros L x n len (V & W & A) H1 H2 H3. destruct (subv_facts L x n len) as (?&?&?&_); auto. repeat split; auto; apply H0. Qed.

  Lemma subv_len : forall x n len, isvec x -> wf x -> 0 <= n -> 0 <= len -> n + len <= vlen x ->
    vlen (armas_subvector_unsafe x n len) = len.
  Proof. intros. destruct (subvec_unsafe_vshows x n len) as (_ & ? & _); auto. Qed.

  Lemma subv_in : forall x n len a, isvec x -> wf x -> 0 <= n -> 0 <= len -> n + len <= vlen x ->
    cell (armas_subvector_unsafe x n len) a -> cell x a.
  Proof.
    intros x n len a V W H1 H2 H3. destruct (subvec_unsafe_vshows x n len) as (_ & _ & _ & H4 & _); auto.
    intros Ha. apply H4 in Ha as (k & Hk & ->). apply (vad_cell x k); auto. unfold vdom. lia.
  Qed.

  Lemma mok_sub : forall L A r c nr nc, mok L A -> 0 <= r -> 0 <= c -> 0 <= nr -> 0 <= nc ->
    r + nr <= rows A -> c + nc <= cols A -> mok L (armas_submatrix_unsafe A r c nr nc).
  Proof. intros L A r c nr nc (W & HL) H1 H2 H3 H4 H5 H6. destruct (subm_facts L A r c nr nc) as (?&?&_); auto. split; auto. Qed.

  Lemma subm_in : forall A r c nr nc a, wf A -> 0 <= r -> 0 <= c -> 0 <= nr -> 0 <= nc ->
    r + nr <= rows A -> c + nc <= cols A -> cell (armas_submatrix_unsafe A r c nr nc) a -> cell A a.
  Proof. intros A r c nr nc a W H1 H2 H3 H4 H5 H6. destruct (sub_shows A r c nr nc) as (_ & _ & _ & H & _); auto. Qed.

  (* a row or a column of A as a vector *)
  Lemma sub_row_velt : forall m A r c n k, 0 <= k < n ->
    velt m (armas_submatrix_unsafe A r c 1 n) k = elt m A r (c + k).
  Proof.
    intros m A r c n k Hk. rewrite velt_vad, elt_mad. f_equal.
    unfold vad, vec_pos, mad. cbn -[Z.add Z.mul]. lia.
  Qed.
  Lemma sub_col_velt : forall m A r c n k, 0 <= k < n ->
    velt m (armas_submatrix_unsafe A r c n 1) k = elt m A (r + k) c.
  Proof.
    intros m A r c n k Hk. rewrite velt_vad, elt_mad. f_equal.
    unfold vad, vec_pos, mad, armas_submatrix_unsafe, armas_make. cbn [rows cols elems step fst snd].
    destruct (n =? 1) eqn:E; cbn [fst snd]; [replace k with 0 by lia|]; lia.
  Qed.
  Lemma sub_row_len : forall A r c n, vlen (armas_submatrix_unsafe A r c 1 n) = n.
  Proof. intros. unfold vlen. cbn -[Z.mul]. lia. Qed.
  Lemma sub_col_len : forall A r c n, vlen (armas_submatrix_unsafe A r c n 1) = n.
  Proof. intros. unfold vlen. cbn -[Z.mul]. lia. Qed.
  Lemma sub_row_vok : forall L A r c n, mok L A -> 0 <= r < rows A -> 0 <= c -> 0 <= n -> c + n <= cols A ->
    vok L (armas_submatrix_unsafe A r c 1 n).
  Proof. intros L A r c n H H1 H2 H3 H4. destruct (mok_sub L A r c 1 n) as (? & ?); auto; try lia. repeat split; auto; try apply H0. left. reflexivity. Qed.
  Lemma sub_col_vok : forall L A r c n, mok L A -> 0 <= r -> 0 <= n -> r + n <= rows A -> 0 <= c < cols A ->
    vok L (armas_submatrix_unsafe A r c n 1).
  Proof. intros L A r c n H H1 H2 H3 H4. destruct (mok_sub L A r c n 1) as (? & ?); auto; try lia. repeat split; auto; try apply H0. right. reflexivity. Qed.

  (* single element reads and writes *)
  Lemma get_unsafe_wp : forall L m A i j (Q : T -> (Z -> T) -> Prop), allocated L A -> pos A i j ->
    Q (elt m A i j) m -> wp (armas_get_unsafe A i j) L m Q.
  Proof. intros L m A i j Q HL Hp HQ. unfold armas_get_unsafe. eapply wp_rd_m; eauto. unfold mad. cbn [fst snd]. lia. Qed.

  Lemma set_unsafe_wp : forall L m A i j v (Q : unit -> (Z -> T) -> Prop), wf A -> allocated L A -> pos A i j ->
    (forall m', elt m' A i j = v -> (forall i' j', pos A i' j' -> (i', j') <> (i, j) -> elt m' A i' j' = elt m A i' j') ->
       only_changes A m m' -> Q tt m') -> wp (armas_set_unsafe A i j v) L m Q.
  Proof.
    intros L m A i j v Q W HL Hp HQ. unfold armas_set_unsafe.
    assert (E : elems A + (j * step A + i) = mad A (i, j)) by (unfold mad; cbn [fst snd]; lia). rewrite E.
    apply wp_wr; [apply HL, mad_cell; auto|]. apply HQ.
    - rewrite elt_mad, Z.eqb_refl. reflexivity.
    - intros i' j' Hp' Hn. rewrite !elt_mad. destruct (mad A (i', j') =? mad A (i, j)) eqn:Ee; auto.
      exfalso. apply Hn. apply (mad_inj A W); auto. lia.
    - intros a Ha. destruct (a =? mad A (i, j)) eqn:Ee; auto. exfalso. apply Ha.
      replace a with (mad A (i, j)) by lia. apply mad_cell; auto.
  Qed.

  Lemma set_at_wp : forall L m x k v (Q : unit -> (Z -> T) -> Prop), isvec x -> wf x -> allocated L x -> 0 <= k < vlen x ->
    (forall m', velt m' x k = v -> (forall q, 0 <= q < vlen x -> q <> k -> velt m' x q = velt m x q) ->
       only_changes x m m' -> Q tt m') -> wp (armas_set_at_unsafe x k v) L m Q.
  Proof.
    intros L m x k v Q V W HL Hk HQ. unfold armas_set_at_unsafe. rewrite set_at_addr.
    apply wp_wr; [apply HL, vad_cell; auto|]. apply HQ.
    - rewrite velt_vad, Z.eqb_refl. reflexivity.
    - intros q Hq Hn. rewrite !velt_vad. destruct (vad x q =? vad x k) eqn:Ee; auto.
      exfalso. apply Hn. apply (vad_inj x V W); auto. lia.
    - intros a Ha. destruct (a =? vad x k) eqn:Ee; auto. exfalso. apply Ha.
      replace a with (vad x k) by lia. apply vad_cell; auto.
  Qed.

  Lemma get_at_safe_wp : forall (zero : T) L m x k (Q : T -> (Z -> T) -> Prop), isvec x -> wf x -> allocated L x -> 0 <= k < vlen x ->
    Q (velt m x k) m -> wp (armas_get_at zero x k) L m Q.
  Proof.
    intros zero L m x k Q V W HL Hk HQ. unfold armas_get_at. change (armas_size x) with (vlen x).
    replace (vlen x =? 0) with false by lia. replace (k <? 0) with false by lia.
    eapply wp_rd_v; eauto. unfold armas_real_index, vad, vec_pos, vlen, isvec, wf in *.
    destruct (cols x =? 1) eqn:E1; destruct (step x =? rows x) eqn:E2; destruct (rows x =? 1) eqn:E3; cbn [orb fst snd]; try nia.
    all: try (replace (rows x) with 1 in * by lia; rewrite ?Z.quot_1_r, ?Z.rem_1_r; nia).
  Qed.
End F.

(* a bit of the flag word *)
Lemma land_bit : forall f k, 0 <= k -> Z.land f (2 ^ k) = if Z.testbit f k then 2 ^ k else 0.
Proof.
  intros f k Hk. apply Z.bits_inj'. intros n Hn. rewrite Z.land_spec, Z.pow2_bits_eqb by lia.
  destruct (k =? n) eqn:E.
  - replace n with k by lia. destruct (Z.testbit f k); rewrite ?Z.pow2_bits_true, ?Z.bits_0 by lia; reflexivity.
  - rewrite andb_false_r. destruct (Z.testbit f k); rewrite ?Z.bits_0, ?Z.pow2_bits_false by lia; reflexivity.
Qed.

Lemma has_bit : forall f k, 0 <= k -> has f (2 ^ k) = Z.testbit f k.
Proof.
  intros f k Hk. unfold has. rewrite land_bit by auto. pose proof (Z.pow_pos_nonneg 2 k).
  destruct (Z.testbit f k); lia.
Qed.

Lemma land_or : forall f a b, Z.land f (Z.lor a b) = Z.lor (Z.land f a) (Z.land f b).
Proof. intros. apply Z.land_lor_distr_r. Qed.

Lemma trm_switch : forall f, Z.land f (Z.lor ARMAS_TRANS (Z.lor ARMAS_UPPER ARMAS_LOWER)) =
  (if has f ARMAS_TRANS then 128 else 0) + (if has f ARMAS_UPPER then 2 else 0) + (if has f ARMAS_LOWER then 1 else 0).
Proof.
  intros f. rewrite !land_or. change ARMAS_TRANS with (2 ^ 7). change ARMAS_UPPER with (2 ^ 1). change ARMAS_LOWER with (2 ^ 0).
  rewrite !land_bit, !has_bit by lia. destruct (Z.testbit f 7), (Z.testbit f 1), (Z.testbit f 0); reflexivity.
Qed.
