(* PSub.v: lemmas on sub-views, vector partitions and merges. *)
From Coq Require Import ZArith List Lia Bool ZifyBool.
From Verif Require Import Mem MView SpecView PView.
Import ListNotations.
Local Open Scope Z_scope.

Lemma sub_shows : forall B r c nr nc, wf B -> 0 <= r -> 0 <= c -> 0 <= nr -> 0 <= nc ->
  r + nr <= rows B -> c + nc <= cols B ->
  shows (armas_submatrix_unsafe B r c nr nc) B r c nr nc.
Proof.
  intros B r c nr nc Hwf H1 H2 H3 H4 H5 H6. repeat split; try (cbn; lia).
  - intros T m i j _. unfold elt. rewrite sub_cell. reflexivity.
  - intros a Ha. apply sub_in in Ha; auto. destruct Ha as (i & j & Hi & Hj & E).
    exists i, j. split; [split; lia | auto].
  - destruct Hwf as (Hr & Hc & Hs). cbn. lia.
Qed.

Lemma size_pos : forall B, wf B -> 0 < rows B -> 0 < cols B -> armas_size B =? 0 = false.
Proof. intros; unfold armas_size; apply Z.eqb_neq; nia. Qed.

Lemma submatrix_eq : forall B r c nr nc, wf B -> 0 < rows B -> 0 < cols B ->
  armas_submatrix B r c nr nc =
  let r := norm_ix (rows B) r in
  let c := norm_ix (cols B) c in
  let nr := if nr <? 0 then rows B - r else nr in
  let nc := if nc <? 0 then cols B - c else nc in
  armas_submatrix_unsafe B r c nr nc.
Proof.
  intros B r c nr nc Hwf Hr Hc. unfold armas_submatrix, armas_submatrix_ext, armas_submatrix_unsafe.
  rewrite size_pos by auto. unfold norm_ix. destruct Hwf as (? & ? & ?).
  cbv zeta. replace (step B <? 0) with false by lia. reflexivity.
Qed.

Lemma submatrix_shows : forall B r c nr nc, wf B -> 0 < rows B -> 0 < cols B ->
  let r' := norm_ix (rows B) r in
  let c' := norm_ix (cols B) c in
  let nr' := if nr <? 0 then rows B - r' else nr in
  let nc' := if nc <? 0 then cols B - c' else nc in
  0 <= r' -> 0 <= c' -> 0 <= nr' -> 0 <= nc' -> r' + nr' <= rows B -> c' + nc' <= cols B ->
  shows (armas_submatrix B r c nr nc) B r' c' nr' nc'.
Proof.
  intros. rewrite submatrix_eq by auto. cbv zeta. apply sub_shows; auto.
Qed.

Lemma column_shows : forall B c, wf B -> 0 < rows B -> 0 < cols B ->
  let c' := norm_ix (cols B) c in 0 <= c' < cols B ->
  shows (armas_column B c) B 0 c' (rows B) 1.
Proof.
  intros B c Hwf Hr Hc c' H. unfold armas_column. rewrite size_pos by auto.
  fold (norm_ix (cols B) c). fold c'. cbv zeta.
  replace (mkview (elems B + c' * step B) (step B) (rows B) 1)
    with (armas_submatrix_unsafe B 0 c' (rows B) 1).
  apply sub_shows; auto; lia.
  unfold armas_submatrix_unsafe, armas_make. f_equal. lia.
Qed.

Lemma row_shows : forall B r, wf B -> 0 < rows B -> 0 < cols B ->
  let r' := norm_ix (rows B) r in 0 <= r' < rows B ->
  shows (armas_row B r) B r' 0 1 (cols B).
Proof.
  intros B r Hwf Hr Hc r' H. unfold armas_row. rewrite size_pos by auto.
  fold (norm_ix (rows B) r). fold r'. cbv zeta.
  replace (mkview (elems B + r') (step B) 1 (cols B))
    with (armas_submatrix_unsafe B r' 0 1 (cols B)).
  apply sub_shows; auto; lia.
  unfold armas_submatrix_unsafe, armas_make. f_equal.
Qed.

(* diagonal k as a row vector *)
Lemma diag_spec : forall B k, wf B -> 0 < rows B -> 0 < cols B ->
  - rows B < k < cols B ->
  let r := Z.max 0 (- k) in
  let c := Z.max 0 k in
  let n := Z.min (rows B - r) (cols B - c) in
  rows (armas_diag B k) = 1 /\ cols (armas_diag B k) = n /\
  (forall T (m : Z -> T) d, 0 <= d < n ->
     velt m (armas_diag B k) d = elt m B (r + d) (c + d)) /\
  (forall a, cell (armas_diag B k) a -> cell B a) /\ wf (armas_diag B k) /\
  armas_diag_unsafe B k = armas_diag B k.
Proof.
  intros B k Hwf Hr Hc Hk r c n. pose proof Hwf as (Hr' & Hc' & Hs).
  assert (Hn : 0 < n) by (unfold n, r, c; lia).
  assert (E : armas_diag B k = mkview (elems B + (c * step B + r)) (step B + 1) 1 n).
  { unfold armas_diag, armas_submatrix_ext. rewrite size_pos by auto.
    cbn [Z.ltb Z.compare]. replace (step B + 1 <? 0) with false by lia.
    unfold n, r, c, armas_make. cbv zeta.
    destruct (k >? 0) eqn:E1; [|destruct (k <? 0) eqn:E2].
    - replace (k <? 0) with false by lia. f_equal; dbool; nia.
    - replace (- k <? 0) with false by lia. f_equal; dbool; nia.
    - f_equal; dbool; nia. }
  assert (E' : armas_diag_unsafe B k = mkview (elems B + (c * step B + r)) (step B + 1) 1 n).
  { unfold armas_diag_unsafe, n, r, c, armas_make.
    destruct (k >? 0) eqn:E1; [|destruct (k <? 0) eqn:E2]; f_equal; dbool; nia. }
  rewrite E, E'. cbn [rows cols]. repeat split; try (cbn; lia).
  - intros T m d Hd. unfold velt, vec_pos, elt. cbn -[Z.add Z.mul]. f_equal. lia.
  - intros a (i & j & (Hi & Hj) & Ea). cbn in Hi, Hj, Ea. exists (r + j), (c + j). split.
    + unfold n, r, c in *; split; lia.
    + lia.
Qed.

(* vectors *)

Lemma vec_cell : forall x, isvec x -> wf x -> forall a, cell x a <->
  exists k, 0 <= k < vlen x /\ a = elems x + snd (vec_pos x k) * step x + fst (vec_pos x k).
Proof.
  intros x Hv (Hr & Hc & Hs) a. unfold vec_pos, vlen. split.
  - intros (i & j & (Hi & Hj) & E). destruct (rows x =? 1) eqn:E1; cbn [fst snd].
    + exists j. replace (rows x) with 1 by lia. split; [lia|]. replace i with 0 in E by lia. lia.
    + destruct Hv; [lia|]. exists i. rewrite H in *. split; [lia|]. replace j with 0 in E by lia. lia.
  - intros (k & Hk & E). destruct (rows x =? 1) eqn:E1; cbn [fst snd] in E.
    + exists 0, k. split; [split; lia|]. lia.
    + destruct Hv; [lia|]. exists k, 0. rewrite H in *. split; [split; lia|]. lia.
Qed.

Lemma subvec_unsafe_vshows : forall x n len, isvec x -> wf x -> 0 <= n -> 0 <= len ->
  n + len <= vlen x -> vshows (armas_subvector_unsafe x n len) x n len.
Proof.
  intros x n len Hv Hwf Hn Hlen Hb. pose proof Hwf as (Hr & Hc & Hs).
  assert (Hw : wf (armas_subvector_unsafe x n len)).
  { unfold armas_subvector_unsafe, vlen in *. destruct (rows x =? 1) eqn:E.
    - apply wf_sub; auto; lia.
    - destruct Hv; [lia|]. apply wf_sub; auto; nia. }
  assert (Hv' : isvec (armas_subvector_unsafe x n len)).
  { unfold armas_subvector_unsafe, isvec. destruct (rows x =? 1); cbn; auto. }
  assert (Hl : vlen (armas_subvector_unsafe x n len) = len).
  { unfold armas_subvector_unsafe, vlen. destruct (rows x =? 1); cbn -[Z.mul]; lia. }
  split; [exact Hv'|]. split; [exact Hl|]. split.
  - intros T m k Hk. unfold velt, vec_pos, armas_subvector_unsafe, elt.
    destruct (rows x =? 1) eqn:E; cbn -[Z.mul Z.add Z.eqb]; rewrite ?Z.eqb_refl; cbn [fst snd].
    + apply (f_equal m); lia.
    + destruct Hv; [lia|]. destruct (len =? 1) eqn:E2; cbn -[Z.mul Z.add]; apply (f_equal m); nia.
  - split; [|exact Hw]. intros a. rewrite (vec_cell _ Hv' Hw a), Hl. split.
    + intros (k & Hk & E). exists (n + k). split; [lia|]. rewrite E. clear E.
      unfold vec_pos, armas_subvector_unsafe.
      destruct (rows x =? 1) eqn:E; cbn -[Z.mul Z.add Z.eqb]; rewrite ?Z.eqb_refl; cbn [fst snd].
      * lia.
      * destruct (len =? 1) eqn:E2; cbn -[Z.mul Z.add]; nia.
    + intros (k & Hk & E). exists (k - n). split; [lia|]. rewrite E. clear E.
      unfold vec_pos, armas_subvector_unsafe.
      destruct (rows x =? 1) eqn:E; cbn -[Z.mul Z.add Z.eqb]; rewrite ?Z.eqb_refl; cbn [fst snd].
      * lia.
      * destruct (len =? 1) eqn:E2; cbn -[Z.mul Z.add]; nia.
Qed.

Lemma subvector_eq : forall x n len, isvec x -> wf x -> 0 < vlen x ->
  armas_subvector x n len =
  let n := norm_ix (vlen x) n in
  let len := if len <? 0 then vlen x - n else len in
  armas_subvector_unsafe x n len.
Proof.
  intros x n len Hv Hwf Hl. unfold armas_subvector, armas_subvector_unsafe.
  assert (Hb : armas_isvector x = true) by (unfold armas_isvector; destruct Hv; lia).
  rewrite Hb. cbn [negb]. pose proof Hwf as (? & ? & ?). unfold vlen in *.
  destruct (rows x =? 1) eqn:E; rewrite submatrix_eq by (auto; nia); cbv zeta.
  - replace (rows x) with 1 by lia. unfold norm_ix at 1 2. cbn [Z.ltb Z.compare].
    rewrite !Z.mul_1_l. reflexivity.
  - destruct Hv; [lia|]. rewrite H2. unfold norm_ix at 2. cbn [Z.ltb Z.compare].
    rewrite !Z.mul_1_r. f_equal.
Qed.

Lemma vec_disj : forall x n len n' len', isvec x -> wf x ->
  0 <= n -> 0 <= len -> 0 <= n' -> 0 <= len' -> n + len <= vlen x -> n' + len' <= vlen x ->
  n + len <= n' \/ n' + len' <= n ->
  disjoint (armas_subvector_unsafe x n len) (armas_subvector_unsafe x n' len').
Proof.
  intros x n len n' len' Hv Hwf H1 H2 H3 H4 H5 H6 Hd a Ha Hb.
  destruct (subvec_unsafe_vshows x n len) as (_ & _ & _ & Hc1 & _); auto.
  destruct (subvec_unsafe_vshows x n' len') as (_ & _ & _ & Hc2 & _); auto.
  apply Hc1 in Ha. apply Hc2 in Hb. destruct Ha as (k & Hk & E), Hb as (k' & Hk' & E').
  assert (k = k').
  { unfold vec_pos, vlen in *. destruct Hwf as (Hr & Hc & Hs). destruct (rows x =? 1) eqn:E1; cbn in E, E'.
    - assert (rows x = 1) by lia. nia.
    - lia. }
  lia.
Qed.

Lemma vec_tiles3 : forall x n1 n2, isvec x -> wf x -> 0 <= n1 -> 0 <= n2 -> n1 + n2 <= vlen x ->
  tiles [armas_subvector_unsafe x 0 n1; armas_subvector_unsafe x n1 n2;
         armas_subvector_unsafe x (n1 + n2) (vlen x - n1 - n2)] x.
Proof.
  intros x n1 n2 Hv Hwf H1 H2 H3. split.
  - intros a. rewrite !Exists_cons, Exists_nil.
    destruct (subvec_unsafe_vshows x 0 n1) as (_ & _ & _ & Hc1 & _); auto; try lia.
    destruct (subvec_unsafe_vshows x n1 n2) as (_ & _ & _ & Hc2 & _); auto; try lia.
    destruct (subvec_unsafe_vshows x (n1 + n2) (vlen x - n1 - n2)) as (_ & _ & _ & Hc3 & _); auto; try lia.
    rewrite Hc1, Hc2, Hc3, (vec_cell x Hv Hwf). split.
    + intros (k & Hk & E). destruct (Z_lt_dec k n1); [left; exists k; split; auto; lia|].
      destruct (Z_lt_dec k (n1 + n2)); [right; left; exists k; split; auto; lia|].
      right; right; left. exists k; split; auto; lia.
    + intros [(k & Hk & E)|[(k & Hk & E)|[(k & Hk & E)|[]]]]; exists k; split; auto; lia.
  - cbn [pairwise_disjoint]. repeat (apply conj || apply Forall_cons || apply Forall_nil || exact I);
      apply vec_disj; auto; lia.
Qed.

Lemma vec_tiles2 : forall x n, isvec x -> wf x -> 0 <= n <= vlen x ->
  tiles [armas_subvector_unsafe x 0 n; armas_subvector_unsafe x n (vlen x - n)] x.
Proof.
  intros x n Hv Hwf H1. split.
  - intros a. rewrite !Exists_cons, Exists_nil.
    destruct (subvec_unsafe_vshows x 0 n) as (_ & _ & _ & Hc1 & _); auto; try lia.
    destruct (subvec_unsafe_vshows x n (vlen x - n)) as (_ & _ & _ & Hc2 & _); auto; try lia.
    rewrite Hc1, Hc2, (vec_cell x Hv Hwf). split.
    + intros (k & Hk & E). destruct (Z_lt_dec k n); [left; exists k; split; auto; lia|].
      right; left. exists k; split; auto; lia.
    + intros [(k & Hk & E)|[(k & Hk & E)|[]]]; exists k; split; auto; lia.
  - cbn [pairwise_disjoint]. repeat (apply conj || apply Forall_cons || apply Forall_nil || exact I);
      apply vec_disj; auto; lia.
Qed.

Lemma vec_part_tiles : forall x nb d, isvec x -> wf x -> 0 <= nb ->
  forall a b, vec_partition_2x1 x nb d = (a, b) -> tiles [a; b] x /\
    match d with PTop => vlen a = Z.min nb (vlen x) | PBottom => vlen b = Z.min nb (vlen x) end.
Proof.
  intros x nb d Hv Hwf Hnb a b. unfold vec_partition_2x1.
  change (armas_size x) with (vlen x).
  assert (Hl : 0 <= vlen x) by (destruct Hwf as (? & ? & ?); unfold vlen; nia).
  set (n := if nb >? vlen x then vlen x else nb).
  assert (Hn : n = Z.min nb (vlen x)) by (unfold n; dbool; lia).
  clearbody n. destruct d; cbv zeta; intros [= <- <-]; split.
  - apply vec_tiles2; auto; lia.
  - destruct (subvec_unsafe_vshows x 0 n) as (_ & -> & _); auto; lia.
  - replace n with (vlen x - (vlen x - n)) at 3 by lia. apply vec_tiles2; auto; lia.
  - destruct (subvec_unsafe_vshows x (vlen x - n) n) as (_ & -> & _); auto; lia.
Qed.

Lemma vec_repart_tiles : forall x xT nb d, isvec x -> wf x -> 0 <= nb ->
  0 <= vlen xT <= vlen x ->
  forall a b c, vec_repartition_2x1to3x1 xT x nb d = (a, b, c) -> tiles [a; b; c] x /\
    match d with
    | PBottom => vlen a = vlen xT /\ vlen b = Z.min nb (vlen x - vlen xT)
    | PTop => vlen a + vlen b = vlen xT /\ vlen b = Z.min nb (vlen xT)
    end.
Proof.
  intros x xT nb d Hv Hwf Hnb HT a b c. unfold vec_repartition_2x1to3x1.
  change (armas_size x) with (vlen x). change (armas_size xT) with (vlen xT).
  destruct d.
  - set (n := if vlen xT <? nb then vlen xT else nb).
    assert (Hn : n = Z.min nb (vlen xT)) by (unfold n; dbool; lia).
    clearbody n. cbv zeta; intros [= <- <- <-]; split.
    + replace (armas_subvector_unsafe x (vlen xT) (vlen x - vlen xT)) with
       (armas_subvector_unsafe x (vlen xT - n + n) (vlen x - (vlen xT - n) - n)) by (f_equal; lia).
      apply vec_tiles3; auto; lia.
    + destruct (subvec_unsafe_vshows x (vlen xT - n) n) as (_ & -> & _); auto; try lia.
      destruct (subvec_unsafe_vshows x 0 (vlen xT - n)) as (_ & -> & _); auto; lia.
  - set (n := if nb + vlen xT >? vlen x then vlen x - vlen xT else nb).
    assert (Hn : n = Z.min nb (vlen x - vlen xT)) by (unfold n; dbool; lia).
    clearbody n. cbv zeta; intros [= <- <- <-]; split.
    + apply vec_tiles3; auto; lia.
    + destruct (subvec_unsafe_vshows x 0 (vlen xT)) as (_ & -> & _); auto; try lia.
      destruct (subvec_unsafe_vshows x (vlen xT) n) as (_ & -> & _); auto; lia.
Qed.

Lemma vec_cont_tiles : forall x x0 x1 d, isvec x -> wf x ->
  0 <= vlen x0 -> 0 <= vlen x1 -> vlen x0 + vlen x1 <= vlen x ->
  forall a b, vec_continue_3x1to2x1 x0 x1 x d = (a, b) -> tiles [a; b] x /\
    vlen a = match d with PBottom => vlen x0 + vlen x1 | PTop => vlen x0 end.
Proof.
  intros x x0 x1 d Hv Hwf H0 H1 H2 a b. unfold vec_continue_3x1to2x1.
  change (armas_size x) with (vlen x). change (armas_size x0) with (vlen x0).
  change (armas_size x1) with (vlen x1). cbv zeta.
  destruct d; intros [= <- <-]; split.
  - apply vec_tiles2; auto; lia.
  - destruct (subvec_unsafe_vshows x 0 (vlen x0)) as (_ & -> & _); auto; lia.
  - replace (vlen x - vlen x0 - vlen x1) with (vlen x - (vlen x0 + vlen x1)) by lia.
    apply vec_tiles2; auto; lia.
  - destruct (subvec_unsafe_vshows x 0 (vlen x0 + vlen x1)) as (_ & -> & _); auto; lia.
Qed.

(* merging *)

Lemma merge2x1_sub : forall A r c n1 n2 nc, wf A -> 0 <= n1 -> 0 <= n2 -> 0 < n1 + n2 -> 0 < nc ->
  mat_merge2x1 (armas_submatrix_unsafe A r c n1 nc) (armas_submatrix_unsafe A (r + n1) c n2 nc)
  = armas_submatrix_unsafe A r c (n1 + n2) nc.
Proof.
  intros A r c n1 n2 nc Hwf H1 H2 H3 H4. unfold mat_merge2x1, armas_size, armas_submatrix_unsafe, armas_make.
  cbn -[Z.mul Z.add].
  destruct (n1 * nc =? 0) eqn:E1, (n2 * nc =? 0) eqn:E2; cbn [andb].
  - exfalso. nia.
  - assert (n1 = 0) by nia. subst. f_equal; lia.
  - assert (n2 = 0) by nia. subst. f_equal; lia.
  - f_equal.
Qed.

Lemma merge1x2_sub : forall A r c n1 n2 nr, wf A -> 0 <= n1 -> 0 <= n2 -> 0 < n1 + n2 -> 0 < nr ->
  mat_merge1x2 (armas_submatrix_unsafe A r c nr n1) (armas_submatrix_unsafe A r (c + n1) nr n2)
  = armas_submatrix_unsafe A r c nr (n1 + n2).
Proof.
  intros A r c n1 n2 nc Hwf H1 H2 H3 H4. unfold mat_merge1x2, armas_size, armas_submatrix_unsafe, armas_make.
  cbn -[Z.mul Z.add].
  destruct (nc * n1 =? 0) eqn:E1, (nc * n2 =? 0) eqn:E2; cbn [andb].
  - exfalso. nia.
  - assert (n1 = 0) by nia. subst. f_equal; lia.
  - assert (n2 = 0) by nia. subst. f_equal; lia.
  - f_equal.
Qed.

Lemma sub_whole : forall A, armas_submatrix_unsafe A 0 0 (rows A) (cols A) = A.
Proof. intros [e s r c]; unfold armas_submatrix_unsafe, armas_make; cbn -[Z.mul Z.add]. f_equal; lia. Qed.

Lemma merge2x1_part : forall A nb d, wf A -> 0 <= nb -> 0 < rows A -> 0 < cols A ->
  let (T, B) := mat_partition_2x1 A nb d in mat_merge2x1 T B = A.
Proof.
  intros A nb d Hwf Hnb Hr Hc. unfold mat_partition_2x1.
  set (n := if nb >? rows A then rows A else nb).
  assert (0 <= n <= rows A) by (unfold n; dbool; lia). clearbody n.
  destruct d; cbv zeta.
  - pose proof (merge2x1_sub A 0 0 n (rows A - n) (cols A) Hwf) as E.
    rewrite Z.add_0_l in E. rewrite E by lia. replace (n + (rows A - n)) with (rows A) by lia.
    apply sub_whole.
  - pose proof (merge2x1_sub A 0 0 (rows A - n) n (cols A) Hwf) as E.
    rewrite Z.add_0_l in E. rewrite E by lia. replace (rows A - n + n) with (rows A) by lia.
    apply sub_whole.
Qed.

Lemma merge1x2_part : forall A nb d, wf A -> 0 <= nb -> 0 < rows A -> 0 < cols A ->
  let (T, B) := mat_partition_1x2 A nb d in mat_merge1x2 T B = A.
Proof.
  intros A nb d Hwf Hnb Hr Hc. unfold mat_partition_1x2.
  set (n := if nb >? cols A then cols A else nb).
  assert (0 <= n <= cols A) by (unfold n; dbool; lia). clearbody n.
  destruct d; cbv zeta.
  - pose proof (merge1x2_sub A 0 0 n (cols A - n) (rows A) Hwf) as E.
    rewrite Z.add_0_l in E. rewrite E by lia. replace (n + (cols A - n)) with (cols A) by lia.
    apply sub_whole.
  - pose proof (merge1x2_sub A 0 0 (cols A - n) n (rows A) Hwf) as E.
    rewrite Z.add_0_l in E. rewrite E by lia. replace (cols A - n + n) with (cols A) by lia.
    apply sub_whole.
Qed.

(* linear element access *)

Lemma norm_lin : forall n ix, - n <= ix < n -> 0 <= norm_ix n ix < n.
Proof. intros; unfold norm_ix; dbool; lia. Qed.

Lemma get_at_run : forall T (zero : T) L m A ix, wf A -> allocated L A ->
  - (rows A * cols A) <= ix < rows A * cols A ->
  let k := norm_ix (rows A * cols A) ix in
  armas_get_at zero A ix L m = Some (elt m A (k mod rows A) (k / rows A), m).
Proof.
  intros T zero L m A ix Hw HL H k. unfold armas_get_at.
  change (armas_size A) with (rows A * cols A). fold (norm_ix (rows A * cols A) ix). fold k.
  replace (rows A * cols A =? 0) with false by lia. cbv zeta.
  destruct (real_index_pos A k Hw) as (Hp & E). { apply norm_lin; auto. }
  rewrite E. rewrite run_rd. rewrite (alloc_addr L A) by auto. unfold elt. rewrite addr_elt. reflexivity.
Qed.

Lemma wr_addr_spec : forall T L (m : Z -> T) A i j v, wf A -> allocated L A -> pos A i j ->
  exists m', wr (addr A i j) v L m = Some (tt, m') /\
    elt m' A i j = v /\
    (forall r c, pos A r c -> (r, c) <> (i, j) -> elt m' A r c = elt m A r c) /\
    only_changes A m m'.
Proof.
  intros T L m A i j v Hw HL Hp. rewrite run_wr. rewrite (alloc_addr L A) by auto.
  eexists; split; [reflexivity|]. repeat split.
  - unfold elt. rewrite <- addr_elt, Z.eqb_refl. reflexivity.
  - intros r c Hrc Hn. unfold elt. rewrite <- addr_elt.
    destruct (_ =? _) eqn:E; auto. exfalso. apply Z.eqb_eq in E.
    apply addr_inj in E; auto. destruct E; subst. apply Hn; auto.
  - intros a Ha. destruct (_ =? _) eqn:E; auto. exfalso; apply Ha.
    apply Z.eqb_eq in E; subst. apply cell_addr; auto.
Qed.

Lemma set_at_spec : forall T L (m : Z -> T) A ix v, wf A -> allocated L A ->
  - (rows A * cols A) <= ix < rows A * cols A ->
  let k := norm_ix (rows A * cols A) ix in
  exists m', armas_set_at A ix v L m = Some (tt, m') /\
    elt m' A (k mod rows A) (k / rows A) = v /\
    (forall r c, pos A r c -> (r, c) <> (k mod rows A, k / rows A) ->
       elt m' A r c = elt m A r c) /\
    only_changes A m m'.
Proof.
  intros T L m A ix v Hw HL H k. unfold armas_set_at.
  change (armas_size A) with (rows A * cols A). fold (norm_ix (rows A * cols A) ix). fold k.
  replace (rows A * cols A =? 0) with false by lia. cbv zeta.
  destruct (real_index_pos A k Hw) as (Hp & E). { apply norm_lin; auto. }
  rewrite E. apply wr_addr_spec; auto.
Qed.

Lemma linear_enumeration : forall A, wf A ->
  (forall k, 0 <= k < rows A * cols A -> pos A (k mod rows A) (k / rows A)) /\
  (forall i j, pos A i j -> exists! k,
     0 <= k < rows A * cols A /\ (k mod rows A, k / rows A) = (i, j)).
Proof.
  intros A Hw. split.
  - intros k Hk. apply real_index_pos; auto.
  - intros i j (Hi & Hj). exists (j * rows A + i). split.
    + split. nia. f_equal.
      * symmetry. apply Z.mod_unique with j; lia.
      * symmetry. apply Z.div_unique with i; lia.
    + intros k (Hk & [= E1 E2]). pose proof (Z.div_mod k (rows A)). nia.
Qed.

Lemma vaddr : forall x k, isvec x -> wf x -> 0 <= k < vlen x ->
  pos x (fst (vec_pos x k)) (snd (vec_pos x k)) /\
  elems x + (if rows x =? 1 then k * step x else k) =
    addr x (fst (vec_pos x k)) (snd (vec_pos x k)).
Proof.
  intros x k Hv (Hr & Hc & Hs) Hk. unfold vec_pos, vlen, addr, pos in *.
  destruct (rows x =? 1) eqn:E; cbn [fst snd].
  - replace (rows x) with 1 in * by lia. lia.
  - destruct Hv as [|Hv]; [lia|]. rewrite Hv in *. lia.
Qed.

Lemma get_at_unsafe_run : forall T L (m : Z -> T) x k, isvec x -> wf x -> allocated L x ->
  0 <= k < vlen x -> armas_get_at_unsafe x k L m = Some (velt m x k, m).
Proof.
  intros T L m x k Hv Hw HL Hk. unfold armas_get_at_unsafe.
  destruct (vaddr x k) as (Hp & E); auto. rewrite E. rewrite run_rd.
  rewrite (alloc_addr L x) by auto. unfold velt, elt. rewrite addr_elt. reflexivity.
Qed.

Lemma set_at_unsafe_spec : forall T L (m : Z -> T) x k v, isvec x -> wf x -> allocated L x ->
  0 <= k < vlen x ->
  exists m', armas_set_at_unsafe x k v L m = Some (tt, m') /\
    velt m' x k = v /\
    (forall q, 0 <= q < vlen x -> q <> k -> velt m' x q = velt m x q) /\
    only_changes x m m'.
Proof.
  intros T L m x k v Hv Hw HL Hk. unfold armas_set_at_unsafe.
  destruct (vaddr x k) as (Hp & E); auto. rewrite E.
  destruct (wr_addr_spec T L m x _ _ v Hw HL Hp) as (m' & H1 & H2 & H3 & H4).
  exists m'. repeat split; auto. intros q Hq Hn. apply H3.
  - apply vaddr; auto.
  - unfold vec_pos. destruct (rows x =? 1); cbn; intros [=]; auto.
Qed.
