(* Properties_Blas1.v: C09 axpy, C10 scale (vectors), C14 dot, C15 asum,
   C16 iamax, C17 iamin, C18 nrm2 and Frobenius norm, C56 matrix norms. *)
From Coq Require Import ZArith Lia Bool.
From Verif Require Import Mem MView SpecView MFlags MCopy MNum SpecNum MBlas1 MNorm
  PUpd PSum PBlas1 PNorm Inst Properties_Copy.
Local Open Scope Z_scope.

(* ---- C09 ---- *)

Theorem C09_axpby : forall T (K : num T), is_ring K ->
  forall L m beta y alpha x,
  isvec y -> isvec x -> wf y -> wf x -> allocated L y -> allocated L x -> disjoint y x ->
  vlen y = vlen x ->
  exists m', armas_axpby K beta y alpha x L m = Some (0, m') /\
    (forall k, 0 <= k < vlen y ->
       velt m' y k = add K (mul K beta (velt m y k)) (mul K alpha (velt m x k))) /\
    only_changes y m m'.
Proof. intros T. exact axpby_spec. Qed.
Print Assumptions C09_axpby.

Theorem C09_axpy : forall T (K : num T), is_ring K ->
  forall L m y alpha x,
  isvec y -> isvec x -> wf y -> wf x -> allocated L y -> allocated L x -> disjoint y x ->
  vlen y = vlen x ->
  exists m', armas_axpy K y alpha x L m = Some (0, m') /\
    (forall k, 0 <= k < vlen y ->
       velt m' y k = add K (velt m y k) (mul K alpha (velt m x k))) /\
    only_changes y m m'.
Proof.
  intros T K HR L m y alpha x. intros.
  destruct (axpby_spec K HR L m (one K) y alpha x) as (m' & H7 & H8 & H9); auto.
  exists m'. split; auto. split; auto. intros k Hk. rewrite H8 by auto.
  rewrite (Rmul_1_l HR). reflexivity.
Qed.
Print Assumptions C09_axpy.

(* operands that are not vectors of one length: error, memory untouched *)
Theorem C09_axpby_mismatch : forall T (K : num T) L m beta y alpha x,
  ~ isvec x \/ ~ isvec y \/ vlen x <> vlen y ->
  exists code, armas_axpby K beta y alpha x L m = Some (code, m) /\ code < 0.
Proof.
  intros T K L m beta y alpha x H. unfold armas_axpby. rewrite <- !isvector_isvec in H.
  change (armas_size x) with (vlen x). change (armas_size y) with (vlen y).
  destruct (armas_isvector x), (armas_isvector y); cbn [andb negb];
    try (eexists; split; [reflexivity|unfold ARMAS_ENEED_VECTOR; lia]).
  destruct (vlen x =? vlen y) eqn:E; cbn [negb].
  - destruct H as [H|[H|H]]; [congruence|congruence|lia].
  - eexists; split; [reflexivity|unfold ARMAS_ESIZE; lia].
Qed.
Print Assumptions C09_axpby_mismatch.

(* a strided row of length 6 and a column of length 6 *)
Definition b1_row : view := mkview 100 7 1 6.
Definition b1_col : view := mkview 1000 9 6 1.
Lemma b1_ok : isvec b1_row /\ isvec b1_col /\ wf b1_row /\ wf b1_col /\
  allocated cp_L b1_row /\ allocated cp_L b1_col /\ disjoint b1_row b1_col /\ vlen b1_row = vlen b1_col.
Proof.
  destruct (cp_ok 100 7 1 6 1000 9 6 1) as (H1 & H2 & H3 & H4 & H5); try lia.
  split; [left; reflexivity|]. split; [right; reflexivity|]. repeat (split; [assumption|]). reflexivity.
Qed.

Example C09_nonvacuous : is_ring Qcnum /\
  isvec b1_row /\ isvec b1_col /\ wf b1_row /\ wf b1_col /\ allocated cp_L b1_row /\
  allocated cp_L b1_col /\ disjoint b1_row b1_col /\ vlen b1_row = vlen b1_col /\ vlen b1_row = 6.
Proof. split; [exact Qc_ring|]. pose proof b1_ok. intuition. Qed.

(* ---- C10, vectors ---- *)

Theorem C10_scale : forall T (K : num T) L m x alpha, wf x -> allocated L x -> isvec x ->
  exists m', armas_scale K x alpha L m = Some (0, m') /\
    (forall k, 0 <= k < vlen x -> velt m' x k = mul K (velt m x k) alpha) /\
    only_changes x m m'.
Proof. intros T. exact scale_spec. Qed.
Print Assumptions C10_scale.

Example C10_scale_nonvacuous : wf b1_row /\ allocated cp_L b1_row /\ isvec b1_row /\ vlen b1_row = 6.
Proof. pose proof b1_ok. intuition. Qed.

(* ---- C14 ---- *)

(* any strategy (optflags), any threshold, enough recursion depth *)
Theorem C14_adot : forall T (K : num T), is_ring K ->
  forall fuel L m blas1min optflags value alpha x y,
  isvec x -> isvec y -> wf x -> wf y -> allocated L x -> allocated L y ->
  vlen x = vlen y -> 0 <= blas1min -> vlen x < Z.of_nat fuel ->
  armas_adot K fuel blas1min optflags value alpha x y L m =
    Some ((0, add K value (mul K alpha (vsum K (vlen x) (fun k => mul K (velt m x k) (velt m y k))))), m).
Proof. intros T. exact adot_spec. Qed.
Print Assumptions C14_adot.

Theorem C14_dot : forall T (K : num T), is_ring K ->
  forall fuel L m blas1min optflags x y,
  isvec x -> isvec y -> wf x -> wf y -> allocated L x -> allocated L y ->
  vlen x = vlen y -> 0 <= blas1min -> vlen x < Z.of_nat fuel ->
  armas_dot K fuel blas1min optflags x y L m =
    Some (vsum K (vlen x) (fun k => mul K (velt m x k) (velt m y k)), m).
Proof. intros T. exact dot_spec. Qed.
Print Assumptions C14_dot.

(* and the arguments may be exchanged *)
Theorem C14_dot_sym : forall T (K : num T), is_ring K ->
  forall fuel L m blas1min optflags blas1min' optflags' x y,
  isvec x -> isvec y -> wf x -> wf y -> allocated L x -> allocated L y ->
  vlen x = vlen y -> 0 <= blas1min -> 0 <= blas1min' -> vlen x < Z.of_nat fuel ->
  armas_dot K fuel blas1min optflags x y L m = armas_dot K fuel blas1min' optflags' y x L m.
Proof.
  intros T K HR. intros. rewrite !(dot_spec K HR) by (auto; lia).
  rewrite <- H5. rewrite (vsum_comm K HR). reflexivity.
Qed.
Print Assumptions C14_dot_sym.

Example C14_nonvacuous : is_ring Znum /\ isvec b1_row /\ isvec b1_col /\ wf b1_row /\ wf b1_col /\
  allocated cp_L b1_row /\ allocated cp_L b1_col /\ vlen b1_row = vlen b1_col /\
  vlen b1_row < Z.of_nat 10 /\
  armas_dot Znum 10 2 0 b1_row b1_col cp_L (fun a => a) = Some (706885, fun a => a).
Proof.
  split; [exact Z_ring|]. pose proof b1_ok as (H1 & H2 & H3 & H4 & H5 & H6 & H7 & H8).
  repeat (split; [assumption|]). split; [reflexivity|vm_compute; reflexivity].
Qed.

(* ---- C15 ---- *)

(* the environment only sets thresholds > 0 (src/base/env.c) *)
Theorem C15_asum : forall T (K : num T), is_ring K ->
  forall fuel L m blas1min optflags x,
  isvec x -> wf x -> allocated L x -> 1 <= blas1min -> vlen x < Z.of_nat fuel ->
  armas_asum K fuel blas1min optflags x L m =
    Some (vsum K (vlen x) (fun k => abs K (velt m x k)), m).
Proof. intros T. exact asum_spec. Qed.
Print Assumptions C15_asum.

Example C15_nonvacuous : is_ring Znum /\ isvec b1_row /\ wf b1_row /\ allocated cp_L b1_row /\
  vlen b1_row < Z.of_nat 10 /\
  armas_asum Znum 10 1 ARMAS_OKAHAN b1_row cp_L (fun a => 110 - a) = Some (71, fun a => 110 - a) /\
  armas_asum Znum 10 1 0 b1_row cp_L (fun a => 110 - a) = Some (71, fun a => 110 - a).
Proof.
  split; [exact Z_ring|]. pose proof b1_ok as (H1 & H2 & H3 & H4 & H5 & H6 & H7 & H8).
  repeat (split; [assumption|]). split; [reflexivity|split; vm_compute; reflexivity].
Qed.

(* ---- C16 ---- *)

Theorem C16_iamax : forall T (K : num T), ltb_ok K ->
  forall L m x, (forall t, ltb K (abs K t) (zero K) = false) ->
  isvec x -> wf x -> allocated L x -> 0 < vlen x ->
  exists ix, armas_iamax K x L m = Some (ix, m) /\ 0 <= ix < vlen x /\
    (forall k, 0 <= k < vlen x -> ltb K (abs K (velt m x ix)) (abs K (velt m x k)) = false) /\
    (forall k, 0 <= k < ix -> ltb K (abs K (velt m x k)) (abs K (velt m x ix)) = true).
Proof. intros T. exact iamax_spec. Qed.
Print Assumptions C16_iamax.

Theorem C16_amax : forall T (K : num T), ltb_ok K ->
  forall L m x, (forall t, ltb K (abs K t) (zero K) = false) ->
  isvec x -> wf x -> allocated L x -> 0 < vlen x ->
  exists ix, 0 <= ix < vlen x /\
    armas_amax K x L m = Some (abs K (velt m x ix), m) /\
    (forall k, 0 <= k < vlen x -> ltb K (abs K (velt m x ix)) (abs K (velt m x k)) = false).
Proof. intros T. exact amax_spec. Qed.
Print Assumptions C16_amax.

(* empty vectors and matrices: an error code, no memory access *)
Theorem C16_iamax_error : forall T (K : num T) L m x, ~ isvec x \/ vlen x = 0 ->
  exists code, armas_iamax K x L m = Some (code, m) /\ code < 0.
Proof.
  intros T K L m x H. unfold armas_iamax. rewrite <- isvector_isvec in H.
  change (armas_size x) with (vlen x). destruct (armas_isvector x); cbn [negb].
  - destruct H as [H|H]; [congruence|]. rewrite H. eexists; split; [reflexivity|unfold ARMAS_ESIZE; lia].
  - eexists; split; [reflexivity|unfold ARMAS_ENEED_VECTOR; lia].
Qed.
Print Assumptions C16_iamax_error.

Example C16_nonvacuous : ltb_ok Znum /\ (forall t, ltb Znum (abs Znum t) (zero Znum) = false) /\
  isvec b1_row /\ wf b1_row /\ allocated cp_L b1_row /\ 0 < vlen b1_row /\
  armas_iamax Znum b1_row cp_L (fun a => 120 - a) = Some (0, fun a => 120 - a) /\
  armas_iamax Znum b1_row cp_L (fun a => 110 - a) = Some (5, fun a => 110 - a).
Proof.
  split; [exact Z_ltb|]. split; [exact Z_abs_nn|].
  pose proof b1_ok as (H1 & H2 & H3 & H4 & H5 & H6 & H7 & H8).
  repeat (split; [assumption|]). split; [reflexivity|split; vm_compute; reflexivity].
Qed.

(* ---- C17 ---- *)

(* for contiguous vectors; missing: rows of a matrix with leading dimension > 1 *)
Theorem C17_iamin_partial : forall T (K : num T), ltb_ok K ->
  forall L m x,
  isvec x -> wf x -> allocated L x -> 0 < vlen x -> vinc x = 1 \/ vlen x = 1 ->
  exists ix, armas_iamin K x L m = Some (ix, m) /\ 0 <= ix < vlen x /\
    (forall k, 0 <= k < vlen x -> ltb K (abs K (velt m x k)) (abs K (velt m x ix)) = false) /\
    (forall k, 0 <= k < ix -> ltb K (abs K (velt m x ix)) (abs K (velt m x k)) = true).
Proof. intros T. exact iamin_spec. Qed.
Print Assumptions C17_iamin_partial.

(* on a row of a matrix the second element read is not an element of the vector,
   and the index returned is not the smallest element *)
Theorem C17_iamin_refuted : exists L m x ix, isvec x /\ wf x /\ allocated L x /\ 0 < vlen x /\
  armas_iamin Znum x L m = Some (ix, m) /\
  exists k, 0 <= k < vlen x /\ Z.abs (velt m x k) < Z.abs (velt m x ix).
Proof.
  exists cp_L, (fun a => if a =? 101 then 1 else a), b1_row, 1.
  pose proof b1_ok as (H1 & H2 & H3 & H4 & H5 & H6 & H7 & H8).
  repeat (split; [assumption|]). split; [reflexivity|]. split; [vm_compute; reflexivity|].
  exists 0. vm_compute. intuition congruence.
Qed.
Print Assumptions C17_iamin_refuted.

Example C17_nonvacuous : ltb_ok Znum /\ isvec b1_col /\ wf b1_col /\ allocated cp_L b1_col /\
  0 < vlen b1_col /\ vinc b1_col = 1 /\
  armas_iamin Znum b1_col cp_L (fun a => 1003 - a) = Some (3, fun a => 1003 - a).
Proof.
  split; [exact Z_ltb|]. pose proof b1_ok as (H1 & H2 & H3 & H4 & H5 & H6 & H7 & H8).
  repeat (split; [assumption|]). split; [reflexivity|split; vm_compute; reflexivity].
Qed.

(* ---- C18 ---- *)

(* r is the non-negative number whose square is the sum of squares.  Division in
   a field as specified by is_field is total; C18_nrm2_div shows that every
   division is by a non-zero number. *)
Theorem C18_nrm2 : forall T (K : num T), is_field K -> is_ordered K -> eqb_ok K ->
  forall L m x, sqrt_ok K -> isvec x -> wf x -> allocated L x ->
  exists r, armas_nrm2 K x L m = Some (r, m) /\ ltb K r (zero K) = false /\
    mul K r r = vsum K (vlen x) (fun k => mul K (velt m x k) (velt m x k)).
Proof. intros T. exact nrm2_spec. Qed.
Print Assumptions C18_nrm2.

(* the result is the same whatever the result of dividing by zero: changing the
   value of x/0 does not change the hypotheses of C18_nrm2 *)
Theorem C18_nrm2_div : forall T (K : num T) (g : T -> T),
  is_field K -> is_ordered K -> eqb_ok K -> sqrt_ok K ->
  let K' := mknum T (zero K) (one K) (add K) (sub K) (mul K)
              (fun a b => if eqb K b (zero K) then mul K a (g b) else div K a b)
              (opp K) (abs K) (sqrt K) (eqb K) (ltb K) in
  forall L m x, isvec x -> wf x -> allocated L x ->
  exists r, armas_nrm2 K' x L m = Some (r, m) /\ ltb K r (zero K) = false /\
    mul K r r = vsum K (vlen x) (fun k => mul K (velt m x k) (velt m x k)).
Proof.
  intros T K g HF HO HE HS K' L m x Vx Wx Lx.
  assert (HF' : is_field K').
  { destruct HF as [H1 H2 H3 H4]. constructor; cbn.
    - exact H1.
    - exact H2.
    - intros p q. destruct (eqb K q (zero K)); [rewrite (Rmul_1_l H1)|]; auto.
    - intros p Hp. destruct (eqb K p (zero K)) eqn:E; [apply HE in E; contradiction|]. auto. }
  destruct (nrm2_spec K' HF' HO HE L m x HS Vx Wx Lx) as (r & H1 & H2 & H3).
  exists r. split; auto. split; auto. refine (eq_trans H3 _). unfold vsum.
  generalize (Z.to_nat (vlen x)). induction n as [|n IH]; [reflexivity|].
  cbn [bigsum]. rewrite IH. reflexivity.
Qed.
Print Assumptions C18_nrm2_div.

Theorem C18_frobenius : forall T (K : num T), is_field K -> is_ordered K -> eqb_ok K ->
  forall L m A, sqrt_ok K -> wf A -> allocated L A -> 0 < rows A -> 0 < cols A ->
  exists r, armas_mnorm K 0 0 0 A ARMAS_NORM_FRB L m = Some (r, m) /\ ltb K r (zero K) = false /\
    mul K r r = msum K (rows A) (cols A) (fun i j => mul K (elt m A i j) (elt m A i j)).
Proof.
  intros T K HF HO HE L m A HS WA LA Hr Hc. unfold armas_mnorm.
  replace (armas_size A =? 0) with false by (unfold armas_size; nia). cbn [Z.eqb Pos.eqb ARMAS_NORM_FRB].
  cbv zeta. change (ARMAS_NORM_FRB =? ARMAS_NORM_ONE) with false. change (ARMAS_NORM_FRB =? ARMAS_NORM_TWO) with false.
  change (ARMAS_NORM_FRB =? ARMAS_NORM_INF) with false. change (ARMAS_NORM_FRB =? ARMAS_NORM_FRB) with true.
  cbv iota.
  destruct ((rows A =? 1) || (cols A =? 1)) eqn:E.
  - assert (V : isvec A) by (unfold isvec; lia).
    destruct (nrm2_spec K HF HO HE L m A HS V WA LA) as (r & H1 & H2 & H3).
    exists r. split; auto. split; auto. rewrite H3. unfold vlen, msum, velt, vec_pos.
    destruct (rows A =? 1) eqn:E1; cbn [fst snd].
    + assert (Er : rows A = 1) by lia. rewrite Er, Z.mul_1_l. apply vsum_ext. intros j Hj.
      symmetry. apply (vsum_1 K (field_ring K HF)).
    + assert (Ec : cols A = 1) by lia. rewrite Ec, Z.mul_1_r. symmetry. apply (vsum_1 K (field_ring K HF)).
  - apply norm_frb_spec; auto.
Qed.
Print Assumptions C18_frobenius.

Example C18_nonvacuous : is_field Rnum /\ is_ordered Rnum /\ eqb_ok Rnum /\ sqrt_ok Rnum /\
  isvec b1_row /\ wf b1_row /\ allocated cp_L b1_row /\ vlen b1_row = 6 /\
  wf cp_A /\ allocated cp_L cp_A /\ 0 < rows cp_A /\ 0 < cols cp_A.
Proof.
  split; [exact R_field|]. split; [exact R_ordered|]. split; [exact R_eqb|]. split; [exact R_sqrt_ok|].
  pose proof b1_ok as (H1 & H2 & H3 & H4 & H5 & H6 & H7 & H8).
  destruct C06_nonvacuous as (A1 & _ & A2 & _).
  repeat (split; [assumption || reflexivity|]). reflexivity.
Qed.

(* ---- C56 ---- *)

(* one norm of a proper matrix: the largest column sum of absolute values *)
Theorem C56_norm_one : forall T (K : num T), is_field K -> is_ordered K ->
  forall fuel L m blas1min optflags A, wf A -> allocated L A ->
  1 < rows A -> 1 < cols A -> 1 <= blas1min -> rows A < Z.of_nat fuel ->
  let csum := fun j => vsum K (rows A) (fun i => abs K (elt m A i j)) in
  exists j, 0 <= j < cols A /\
    armas_mnorm K fuel blas1min optflags A ARMAS_NORM_ONE L m = Some (csum j, m) /\
    forall k, 0 <= k < cols A -> ltb K (csum j) (csum k) = false.
Proof.
  intros T K HF HO fuel L m blas1min optflags A WA LA Hr Hc Hb Hf. unfold armas_mnorm.
  replace (armas_size A =? 0) with false by (unfold armas_size; nia). cbv zeta.
  change (ARMAS_NORM_ONE =? ARMAS_NORM_ONE) with true. cbv iota.
  replace ((rows A =? 1) || (cols A =? 1)) with false by lia.
  apply norm_one_spec; auto; lia.
Qed.
Print Assumptions C56_norm_one.

(* infinity norm of a proper matrix: the largest row sum of absolute values *)
Theorem C56_norm_inf : forall T (K : num T), is_field K -> is_ordered K ->
  forall fuel L m blas1min optflags A, wf A -> allocated L A ->
  1 < rows A -> 1 < cols A -> 1 <= blas1min -> cols A < Z.of_nat fuel ->
  let rsum := fun i => vsum K (cols A) (fun j => abs K (elt m A i j)) in
  exists i, 0 <= i < rows A /\
    armas_mnorm K fuel blas1min optflags A ARMAS_NORM_INF L m = Some (rsum i, m) /\
    forall k, 0 <= k < rows A -> ltb K (rsum i) (rsum k) = false.
Proof.
  intros T K HF HO fuel L m blas1min optflags A WA LA Hr Hc Hb Hf. unfold armas_mnorm.
  replace (armas_size A =? 0) with false by (unfold armas_size; nia). cbv zeta.
  change (ARMAS_NORM_INF =? ARMAS_NORM_ONE) with false. change (ARMAS_NORM_INF =? ARMAS_NORM_TWO) with false.
  change (ARMAS_NORM_INF =? ARMAS_NORM_INF) with true. cbv iota.
  replace ((rows A =? 1) || (cols A =? 1)) with false by lia.
  apply norm_inf_spec; auto; lia.
Qed.
Print Assumptions C56_norm_inf.

Example C56_nonvacuous : is_field Rnum /\ is_ordered Rnum /\ wf cp_A /\ allocated cp_L cp_A /\
  1 < rows cp_A /\ 1 < cols cp_A /\ rows cp_A < Z.of_nat 10 /\ cols cp_A < Z.of_nat 10 /\
  armas_mnorm Znum 10 2 0 cp_A ARMAS_NORM_INF cp_L (fun a => 120 - a) = Some (63, fun a => 120 - a).
Proof.
  split; [exact R_field|]. split; [exact R_ordered|].
  destruct C06_nonvacuous as (A1 & _ & A2 & _).
  repeat (split; [assumption || reflexivity|]). vm_compute. reflexivity.
Qed.
