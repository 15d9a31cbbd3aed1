(* Properties_Sort.v: C52 insertion sort, C53 quicksort, C54 sorting of eigenvalues with their vectors. *)
From Coq Require Import ZArith Lia Bool ZifyBool List Ring.
From Verif Require Import Mem MView SpecView PView PSub Hoare MFlags MCopy PUpd MNum SpecNum SpecPivot MSort PPivot PSort PQsort PEigsort Inst Properties_Copy.
Import ListNotations.
Local Open Scope Z_scope.
Local Open Scope prog_scope.

Lemma pb_bij : forall n f, pb n f -> bijective_on n f.
Proof.
  intros n f (g & H1 & H2 & H3 & H4). split; auto. intros i Hi. exists (g i). auto.
Qed.

(* no element is followed by one that the requested order puts before it *)
Definition in_order {T} (K : num T) (updown : Z) (n : Z) (f : Z -> T) : Prop :=
  forall i j, 0 <= i -> i < j -> j < n ->
    if updown >? 0 then ltb K (f j) (f i) = false else ltb K (f i) (f j) = false.

(* ---- C52 ---- *)

Theorem C52_sort_vec : forall T (K : num T) L m D updown, ltb_ok K -> isvec D -> wf D -> allocated L D ->
  exists m' pi, armas_sort_vec K D updown L m = Some (tt, m') /\
    in_order K updown (vlen D) (velt m' D) /\
    bijective_on (vlen D) pi /\ (forall k, 0 <= k < vlen D -> velt m' D k = velt m D (pi k)) /\
    only_changes D m m'.
Proof.
  intros T K L m D updown HO V W A.
  assert (X : wp (armas_sort_vec K D updown) L m (fun _ m' => qpost K D (updown >? 0) m m')).
  { unfold armas_sort_vec. apply isort_q; auto. }
  destruct X as ([] & m' & E & pi & P1 & (P2 & P3) & P4). exists m', pi. split; [exact E|]. split.
  - intros i j Hi Hij Hj. specialize (P4 i j Hi Hij Hj). unfold lt in P4. destruct (updown >? 0); exact P4.
  - split; [apply pb_bij; auto|]. auto.
Qed.
Print Assumptions C52_sort_vec.

Example C52_nonvacuous : exists m', isvec (mkview 100 1 1 5) /\ wf (mkview 100 1 1 5) /\ allocated cp_L (mkview 100 1 1 5) /\
  ltb_ok Znum /\ armas_sort_vec Znum (mkview 100 1 1 5) 1 cp_L (fun a => (a * 7) mod 5) = Some (tt, m') /\
  map (velt m' (mkview 100 1 1 5)) [0; 1; 2; 3; 4] = [0; 1; 2; 3; 4] /\
  map (velt (fun a => (a * 7) mod 5) (mkview 100 1 1 5)) [0; 1; 2; 3; 4] = [0; 2; 4; 1; 3].
Proof.
  eexists. split; [left; reflexivity|]. split; [unfold wf; cbn; lia|]. split.
  { intros a (i & j & Hp & ->). unfold pos in Hp. cbn -[Z.mul Z.add] in *. unfold cp_L. lia. }
  split; [exact Z_ltb|]. split; [vm_compute; reflexivity|]. split; reflexivity.
Qed.

(* Sorting on absolute values: the absolute values end in order and are a permutation of the
   original ones.  Missing: the signs are not kept, C58_abs_sort_signs_refuted. *)
Theorem C58_abs_sort_partial : forall T (K : num T) L m D updown, is_ring K -> is_ordered K -> isvec D -> wf D -> allocated L D ->
  exists m' pi, armas_abs_sort_vec K D updown L m = Some (tt, m') /\
    in_order K updown (vlen D) (fun k => abs K (velt m' D k)) /\
    bijective_on (vlen D) pi /\ (forall k, 0 <= k < vlen D -> abs K (velt m' D k) = abs K (velt m D (pi k))) /\
    only_changes D m m'.
Proof.
  intros T K L m D updown HR (HO & O1 & O2 & O3) V W A.
  assert (Hi : forall a, abs K (abs K a) = abs K a).
  { intros a. rewrite (O3 a). destruct (ltb K a (zero K)) eqn:E.
    - rewrite O3. assert (X : ltb K (zero K) (opp K a) = true).
      { pose proof (O1 a (zero K) (opp K a) E) as X.
        rewrite (Ropp_def HR), (Radd_0_l HR) in X. exact X. }
      destruct (ltb K (opp K a) (zero K)) eqn:E2; auto.
      destruct HO as (I1 & I2 & _). pose proof (I2 _ _ _ X E2) as Y. rewrite I1 in Y. discriminate.
    - rewrite O3, E. reflexivity. }
  assert (X : wp (armas_abs_sort_vec K D updown) L m (fun _ m' => exists pi, pb (vlen D) pi /\
     (forall i, 0 <= i < vlen D -> abs K (velt m' D i) = abs K (velt m D (pi i))) /\
     only_changes D m m' /\ gsorted K (abs K) D (updown >? 0) (vlen D) m')).
  { unfold armas_abs_sort_vec. eapply isort_wp with (g := abs K); auto.
    - intros i m0 Q Hk HQ. wbind. apply get_at_wp; auto. apply wp_ret. exact HQ.
    - intros m' pi H1 H2 H3 H4. exists pi. auto. }
  destruct X as ([] & m' & E & pi & P1 & P2 & P3 & P4). exists m', pi. split; [exact E|]. split.
  - intros i j H1 H2 H3. specialize (P4 i j H1 H2 H3). unfold lt in P4. destruct (updown >? 0); exact P4.
  - split; [apply pb_bij; auto|]. auto.
Qed.
Print Assumptions C58_abs_sort_partial.

(* a vector that is already in order loses the signs of all elements but the first (sort.c:49-57) *)
Theorem C58_abs_sort_signs_refuted : exists L (m : Z -> Z) D m', isvec D /\ wf D /\ allocated L D /\
  armas_abs_sort_vec Znum D 1 L m = Some (tt, m') /\
  map (velt m D) [0; 1] = [-1; -2] /\ map (velt m' D) [0; 1] = [-1; 2].
Proof.
  exists cp_L, (fun a => 99 - a), (mkview 100 2 2 1). eexists. split; [right; reflexivity|]. split; [unfold wf; cbn; lia|]. split.
  { intros a (i & j & Hp & ->). unfold pos in Hp. cbn -[Z.mul Z.add] in *. unfold cp_L. lia. }
  split; [vm_compute; reflexivity|]. split; reflexivity.
Qed.
Print Assumptions C58_abs_sort_signs_refuted.

(* ---- C53 ---- *)

(* Quicksort, for vectors without equal elements whose next cell in memory may be read.
   Missing: equal elements, where it may not end (C53_duplicates_refuted), and a vector at the end
   of an allocation, where it reads outside (C53_read_past_end_refuted). *)
Theorem C53_qsort_partial : forall T (K : num T) L m D updown fuel, ltb_ok K -> isvec D -> wf D -> allocated L D ->
  (forall i j, 0 <= i -> i < j -> j < vlen D -> velt m D i <> velt m D j) ->
  L (elems D + (if rows D =? 1 then vlen D * step D else vlen D)) = true ->
  vlen D + 1 < Z.of_nat fuel ->
  exists m' pi, armas_qsort_vec K fuel D updown L m = Some (0, m') /\
    in_order K updown (vlen D) (velt m' D) /\
    bijective_on (vlen D) pi /\ (forall k, 0 <= k < vlen D -> velt m' D k = velt m D (pi k)) /\
    only_changes D m m'.
Proof.
  intros T K L m D updown fuel HO V W A Dis Le Hf.
  assert (X : wp (armas_qsort_vec K fuel D updown) L m (fun r m' => r = 0 /\ qpost K D (updown >? 0) m m')).
  { unfold armas_qsort_vec. replace (armas_isvector D) with true by (symmetry; apply isvector_isvec; auto). cbn [negb].
    wbind. eapply qsort_rec_wp; eauto.
    - intros _. rewrite <- set_at_addr. exact Le.
    - intros m' Hm. apply wp_ret. auto. }
  destruct X as (r & m' & E & -> & pi & P1 & (P2 & P3) & P4). exists m', pi. split; [exact E|]. split.
  - intros i j Hi Hij Hj. specialize (P4 i j Hi Hij Hj). unfold lt in P4. destruct (updown >? 0); exact P4.
  - split; [apply pb_bij; auto|]. auto.
Qed.
Print Assumptions C53_qsort_partial.

(* Fewer than eight elements: no restriction. *)
Theorem C53_qsort_short_partial : forall T (K : num T) L m D updown fuel, ltb_ok K -> isvec D -> wf D -> allocated L D ->
  vlen D < 8 -> (0 < fuel)%nat ->
  exists m' pi, armas_qsort_vec K fuel D updown L m = Some (0, m') /\
    in_order K updown (vlen D) (velt m' D) /\
    bijective_on (vlen D) pi /\ (forall k, 0 <= k < vlen D -> velt m' D k = velt m D (pi k)) /\
    only_changes D m m'.
Proof.
  intros T K L m D updown fuel HO V W A Hn Hf. destruct fuel as [|f]; [lia|].
  assert (X : wp (armas_qsort_vec K (S f) D updown) L m (fun r m' => r = 0 /\ qpost K D (updown >? 0) m m')).
  { unfold armas_qsort_vec. replace (armas_isvector D) with true by (symmetry; apply isvector_isvec; auto). cbn [negb].
    wbind. cbn [qsort_rec]. change (armas_size D) with (vlen D). unfold CUTOFF. replace (vlen D <? 8) with true by lia.
    apply isort_q; auto. intros m' Hm. apply wp_ret. auto. }
  destruct X as (r & m' & E & -> & pi & P1 & (P2 & P3) & P4). exists m', pi. split; [exact E|]. split.
  - intros i j Hi Hij Hj. specialize (P4 i j Hi Hij Hj). unfold lt in P4. destruct (updown >? 0); exact P4.
  - split; [apply pb_bij; auto|]. auto.
Qed.
Print Assumptions C53_qsort_short_partial.

(* a matrix that is not a vector is rejected and left as it is *)
Theorem C53_not_vector : forall T (K : num T) L m D updown fuel, ~ isvec D ->
  armas_qsort_vec K fuel D updown L m = Some (-2, m) /\
  (forall U V C, armas_sort_eigenvec K D U V C updown L m = Some (-2, m)).
Proof.
  intros T K L m D updown fuel H.
  assert (E : armas_isvector D = false) by (destruct (armas_isvector D) eqn:E; auto; apply isvector_isvec in E; contradiction).
  split; [|intros U V C]; unfold armas_qsort_vec, armas_sort_eigenvec; rewrite E; reflexivity.
Qed.
Print Assumptions C53_not_vector.

Definition q_D : view := mkview 100 12 12 1.
Definition q_m (a : Z) : Z := (a * 5) mod 12.

Lemma q_alloc : allocated cp_L q_D.
Proof. intros a (i & j & Hp & ->). unfold pos in Hp. cbn -[Z.mul Z.add] in *. unfold cp_L. lia. Qed.

Example C53_nonvacuous : isvec q_D /\ wf q_D /\ allocated cp_L q_D /\
  (forall i j, 0 <= i -> i < j -> j < vlen q_D -> velt q_m q_D i <> velt q_m q_D j) /\
  exists m', armas_qsort_vec Znum 20 q_D (-1) cp_L q_m = Some (0, m') /\
    map (velt q_m q_D) [0; 1; 2; 3; 4; 5; 6; 7; 8; 9; 10; 11] = [8; 1; 6; 11; 4; 9; 2; 7; 0; 5; 10; 3] /\
    map (velt m' q_D) [0; 1; 2; 3; 4; 5; 6; 7; 8; 9; 10; 11] = [11; 10; 9; 8; 7; 6; 5; 4; 3; 2; 1; 0].
Proof.
  split; [right; reflexivity|]. split; [unfold wf; cbn; lia|]. split; [exact q_alloc|]. split.
  { intros i j Hi Hij Hj. cbn in Hj. unfold velt, elt, vec_pos, q_D. cbn -[Z.mul Z.add q_m].
    unfold q_m. replace (100 + 0 * 12 + i) with (100 + i) by lia. replace (100 + 0 * 12 + j) with (100 + j) by lia.
    intros E. pose proof (Z.div_mod ((100 + i) * 5) 12 ltac:(lia)). pose proof (Z.div_mod ((100 + j) * 5) 12 ltac:(lia)). lia. }
  eexists. split; [vm_compute; reflexivity|]. split; reflexivity.
Qed.

(* Eight equal elements: the partition loop exchanges the same two elements for ever (qsort.c:80-88). *)
Lemma dup_loop : forall f (m : Z -> Z), (forall a, 100 <= a < 109 -> m a = 5) ->
  part_loop Znum f (mkview 100 8 8 1) true 5 1 7 8 cp_L m = None.
Proof.
  assert (R : forall p (m : Z -> Z), 100 <= p < 109 -> rd p cp_L m = Some (m p, m)).
  { intros p m Hp. rewrite run_rd. replace (cp_L p) with true by (unfold cp_L; lia). reflexivity. }
  assert (Wr : forall p v (m : Z -> Z), 100 <= p < 109 -> wr p v cp_L m = Some (tt, fun a => if a =? p then v else m a)).
  { intros p v m Hp. rewrite run_wr. replace (cp_L p) with true by (unfold cp_L; lia). reflexivity. }
  induction f as [|f IH]; intros m Hm; [reflexivity|].
  change (part_loop Znum (S f) (mkview 100 8 8 1) true 5 1 7 8)
    with (i <- scan_up Znum 9 (mkview 100 8 8 1) true 5 1 8 ;;
          j <- scan_down Znum 9 (mkview 100 8 8 1) true 5 7 ;;
          if i >=? j then ret j
          else swap_at (mkview 100 8 8 1) i j ;; part_loop Znum f (mkview 100 8 8 1) true 5 i j 8).
  assert (U : scan_up Znum 9 (mkview 100 8 8 1) true 5 1 8 cp_L m = Some (1, m)).
  { cbn [scan_up]. rewrite !run_bind. unfold armas_get_at_unsafe. cbn [elems rows]. change (8 =? 1) with false. cbv iota.
    rewrite R by lia. rewrite Hm by lia. reflexivity. }
  assert (D : scan_down Znum 9 (mkview 100 8 8 1) true 5 7 cp_L m = Some (7, m)).
  { cbn [scan_down]. rewrite !run_bind. unfold armas_get_at_unsafe. cbn [elems rows]. change (8 =? 1) with false. cbv iota.
    rewrite R by lia. rewrite Hm by lia. reflexivity. }
  rewrite run_bind at 1. rewrite U. rewrite run_bind at 1. rewrite D. change (1 >=? 7) with false. cbv iota.
  unfold swap_at. rewrite !run_bind. unfold armas_get_at_unsafe, armas_set_at_unsafe. cbn [elems rows]. change (8 =? 1) with false. cbv iota.
  rewrite R by lia. rewrite run_bind, R by lia. rewrite run_bind, Wr by lia. rewrite Wr by lia.
  apply IH. intros a Ha. cbv beta. rewrite (Hm (100 + 1)), (Hm (100 + 7)) by lia.
  destruct (a =? 100 + 7); auto. destruct (a =? 100 + 1); auto.
Qed.

Theorem C53_duplicates_refuted : exists L (m : Z -> Z) D, isvec D /\ wf D /\ allocated L D /\
  L (elems D + vlen D) = true /\ vlen D = 8 /\
  forall fuel updown, 0 < updown -> armas_qsort_vec Znum fuel D updown L m = None.
Proof.
  exists cp_L, (fun _ => 5), (mkview 100 8 8 1). split; [right; reflexivity|]. split; [unfold wf; cbn; lia|]. split.
  { intros a (i & j & Hp & ->). unfold pos in Hp. cbn -[Z.mul Z.add] in *. unfold cp_L. lia. }
  split; [reflexivity|]. split; [reflexivity|]. intros fuel updown Hu. destruct fuel as [|f]; [reflexivity|].
  unfold armas_qsort_vec. replace (updown >? 0) with true by lia.
  change (negb (armas_isvector (mkview 100 8 8 1))) with false. cbv iota.
  rewrite run_bind at 1.
  assert (X : qsort_rec Znum (S f) (mkview 100 8 8 1) true cp_L (fun _ : Z => 5) =
    (j <- part_loop Znum f (mkview 100 8 8 1) true 5 1 7 8 ;;
     vj <- armas_get_at_unsafe (mkview 100 8 8 1) j ;;
     armas_set_at_unsafe (mkview 100 8 8 1) 0 vj ;;
     armas_set_at_unsafe (mkview 100 8 8 1) j 5 ;;
     qsort_rec Znum f (armas_subvector_unsafe (mkview 100 8 8 1) 0 j) true ;;
     qsort_rec Znum f (armas_subvector_unsafe (mkview 100 8 8 1) (j + 1) (8 - j - 1)) true) cp_L
     (fun a => if a =? 100 then 5 else if a =? 104 then 5 else 5)).
  { reflexivity. }
  rewrite X. rewrite run_bind at 1. rewrite dup_loop; auto.
  intros a Ha. destruct (a =? 100); auto. destruct (a =? 104); auto.
Qed.
Print Assumptions C53_duplicates_refuted.

(* Eight different elements, nothing allocated behind them: the scan from the left reads the element
   behind the last one before it compares the index (qsort.c:81). *)
Theorem C53_read_past_end_refuted : exists L (m : Z -> Z) D, isvec D /\ wf D /\ allocated L D /\ vlen D = 8 /\
  (forall i j, 0 <= i -> i < j -> j < vlen D -> velt m D i <> velt m D j) /\
  forall fuel, armas_qsort_vec Znum fuel D 1 L m = None.
Proof.
  exists (fun a => (0 <=? a) && (a <? 8)), (fun a => if a =? 4 then 100 else a), (mkview 0 8 8 1).
  split; [right; reflexivity|]. split; [unfold wf; cbn; lia|]. split.
  { intros a (i & j & Hp & ->). unfold pos in Hp. cbn -[Z.mul Z.add] in *. lia. }
  split; [reflexivity|]. split.
  { intros i j Hi Hij Hj. cbn in Hj. unfold velt, elt, vec_pos. cbn -[Z.mul Z.add Z.eqb]. 
    replace (0 + 0 * 8 + i) with i by lia. replace (0 + 0 * 8 + j) with j by lia. split_ifs; cbn [fst snd] in *; lia. }
  intros fuel. destruct fuel as [|[|f]]; [reflexivity|reflexivity|]. 
  unfold armas_qsort_vec. change (negb (armas_isvector (mkview 0 8 8 1))) with false. cbv iota.
  rewrite !run_bind. vm_compute. reflexivity.
Qed.
Print Assumptions C53_read_past_end_refuted.

(* ---- C54 ---- *)

Definition olist (o : option view) : list view := match o with Some A => [A] | None => [] end.

(* The values end in order, and one permutation moves the values, the columns of U, the rows of V
   and the elements or columns of C; nothing else changes. *)
Theorem C54_sort_eigenvec : forall T (K : num T) L m D U V C updown, ltb_ok K -> updown <> 0 -> isvec D ->
  (forall A, In A (D :: olist U ++ olist V ++ olist C) -> wf A /\ allocated L A /\ 0 < rows A /\ 0 < cols A) ->
  pairwise_disjoint (D :: olist U ++ olist V ++ olist C) ->
  (forall A, U = Some A -> vlen D <= cols A) ->
  (forall A, V = Some A -> vlen D <= rows A) ->
  (forall A, C = Some A -> (isvec A -> vlen D <= vlen A) /\ (~ isvec A -> vlen D <= cols A)) ->
  exists m' pi, armas_sort_eigenvec K D U V C updown L m = Some (0, m') /\
    in_order K updown (vlen D) (velt m' D) /\
    bijective_on (vlen D) pi /\ (forall k, vlen D <= k -> pi k = k) /\
    (forall k, 0 <= k < vlen D -> velt m' D k = velt m D (pi k)) /\
    (forall A i k, U = Some A -> pos A i k -> elt m' A i k = elt m A i (pi k)) /\
    (forall A k j, V = Some A -> pos A k j -> elt m' A k j = elt m A (pi k) j) /\
    (forall A, C = Some A -> isvec A -> forall k, 0 <= k < vlen A -> velt m' A k = velt m A (pi k)) /\
    (forall A i k, C = Some A -> ~ isvec A -> pos A i k -> elt m' A i k = elt m A i (pi k)) /\
    (forall a, (forall A, In A (D :: olist U ++ olist V ++ olist C) -> ~ cell A a) -> m' a = m a).
Proof.
  intros T K L m D U V C updown HO Hu VD HA PD HU HV HC.
  set (n := vlen D) in *.
  assert (WD : wf D) by (apply HA; left; auto). assert (LD : allocated L D) by (apply HA; left; auto).
  assert (N0 : 0 < n) by (destruct (HA D (or_introl eq_refl)) as (_ & _ & ? & ?); unfold n, vlen; nia).
  assert (Hvec : armas_isvector D = true) by (apply isvector_isvec; auto).
  set (l := [Some (D, vkind D); option_map (fun A => (A, false)) U; option_map (fun A => (A, true)) V;
             option_map (fun A => (A, if armas_isvector A then vkind A else false)) C]).
  assert (OV : oviews l = D :: olist U ++ olist V ++ olist C).
  { unfold l, oviews. cbn [flat_map]. destruct U, V, C; reflexivity. }
  (* velt in terms of kelts *)
  assert (VK : forall A f (m m' : Z -> T), isvec A -> wf A -> kelts (A, vkind A) f m m' ->
     forall k, 0 <= k < vlen A -> velt m' A k = velt m A (f k)).
  { intros A f m1 m2 VA (W1 & W2 & W3) H k Hk. unfold velt, vec_pos. unfold kelts, kmap, vkind in H. cbn [fst snd] in H.
    unfold vlen in Hk. destruct (rows A =? 1) eqn:E; cbn [fst snd negb] in *.
    - apply H. unfold pos. nia.
    - destruct VA as [|VA]; [lia|]. apply H. unfold pos. nia. }
  assert (NL : forall A, isvec A -> nlines (A, vkind A) = vlen A).
  { intros A [VA|VA]; unfold nlines, vkind, vlen; cbn [fst snd].
    - rewrite VA. change (1 =? 1) with true. cbn [negb]. lia.
    - rewrite VA. destruct (rows A =? 1) eqn:E; cbn [negb]; lia. }
  assert (KN : forall p, In (Some p) l -> n <= nlines p).
  { intros p Hp. unfold l in Hp. cbn [In] in Hp. destruct Hp as [Hp|[Hp|[Hp|[Hp|[]]]]].
    - injection Hp as <-. rewrite NL by auto. unfold n; lia.
    - destruct U as [A|]; [|discriminate]. injection Hp as <-. unfold nlines; cbn [fst snd]. apply HU; auto.
    - destruct V as [A|]; [|discriminate]. injection Hp as <-. unfold nlines; cbn [fst snd]. apply HV; auto.
    - destruct C as [A|]; [|discriminate]. injection Hp as <-. destruct (HC A eq_refl) as (C1 & C2).
      destruct (armas_isvector A) eqn:E.
      + apply isvector_isvec in E. rewrite NL by auto. auto.
      + unfold nlines; cbn [fst snd]. apply C2. intros X. apply isvector_isvec in X. congruence. }
  assert (KI : forall f, (forall i, 0 <= i < n -> 0 <= f i < n) -> (forall i, n <= i -> f i = i) ->
     forall p, In (Some p) l -> kin p f).
  { intros f F1 F2 p Hp i Hi. specialize (KN p Hp). destruct (Z_lt_le_dec i n); [specialize (F1 i ltac:(lia)); lia|].
    rewrite F2 by lia. lia. }
  assert (X : exists m' pi, armas_sort_eigenvec K D U V C updown L m = Some (0, m') /\ sorted K D (updown >? 0) m' /\
     pb n pi /\ (forall k, n <= k -> pi k = k) /\ all_kelts l pi m m' /\ all_frame l m m').
  { assert (Main : forall S0 : option view * option view * option view, S0 = (U, V, C) ->
      (U <> None \/ V <> None \/ C <> None) ->
      wp (for_up 0 (n - 1) 1 (fun k =>
        let sD := armas_subvector D k (n - k) in
        pk <- vec_minmax K sD (- updown) ;;
        when (negb (pk =? 0))
         (swap_at D k (k + pk) ;;
          opt_when U (fun U =>
            armas_swap (armas_column U (k + pk)) (armas_column U k) ;; ret tt) ;;
          opt_when V (fun V =>
            armas_swap (armas_row V (k + pk)) (armas_row V k) ;; ret tt) ;;
          opt_when C (fun C =>
            if armas_isvector C then swap_at C k (k + pk)
            else armas_swap (armas_column C (k + pk)) (armas_column C k) ;; ret tt))) ;;
      ret 0) L m (fun r m' => r = 0 /\ exists pi, sorted K D (updown >? 0) m' /\
     pb n pi /\ (forall k, n <= k -> pi k = k) /\ all_kelts l pi m m' /\ all_frame l m m')).
    { intros _ _ _. wbind.
      apply wp_for1 with (I := fun k m' => exists pi, pb n pi /\ (forall q, n <= q -> pi q = q) /\ all_kelts l pi m m' /\ all_frame l m m' /\
        (forall i j, 0 <= i < k -> i < j -> j < n -> lt K (updown >? 0) (velt m' D j) (velt m' D i) = false)).
      - exists (fun i => i). split; [apply pb_id|]. split; [auto|]. split; [|split; [intros a _; auto|intros; lia]].
        intros p Hp i j Hij. unfold kmap. destruct (snd p); reflexivity.
      - intros k m1 Hk (pi & P1 & P2 & P3 & P4 & P5). cbv zeta. wbind.
        rewrite subvector_eq by (auto; fold n; lia). cbv zeta. unfold norm_ix. replace (k <? 0) with false by lia.
        replace (n - k <? 0) with false by lia.
        assert (VS : vshows (armas_subvector_unsafe D k (n - k)) D k (n - k)) by (apply subvec_unsafe_vshows; auto; fold n; lia).
        pose proof VS as (VS1 & VS2 & VS3 & VS4 & VS5).
        apply vec_minmax_wp; auto; try lia.
        { eapply sub_allocated with (x := D); eauto; fold n; lia. }
        rewrite VS2. intros pk Hpk Hmin.
        assert (Hm' : forall q, k <= q < n -> lt K (updown >? 0) (velt m1 D q) (velt m1 D (k + pk)) = false).
        { intros q Hq. specialize (Hmin (q - k) ltac:(lia)). rewrite !VS3 in Hmin by lia.
          replace (k + (q - k)) with q in Hmin by lia. exact Hmin. }
        assert (Fin : forall f m2, (f = transp k (k + pk)) -> all_kelts l f m1 m2 -> all_frame l m1 m2 ->
          exists pi, pb n pi /\ (forall q, n <= q -> pi q = q) /\ all_kelts l pi m m2 /\ all_frame l m m2 /\
          (forall i j, 0 <= i < k + 1 -> i < j -> j < n -> lt K (updown >? 0) (velt m2 D j) (velt m2 D i) = false)).
        { intros f m2 -> K2 F2. 
          assert (TB : pb n (transp k (k + pk))) by (apply pb_transp; lia).
          assert (TO : forall i, n <= i -> transp k (k + pk) i = i).
          { intros i Hi. unfold transp. replace (i =? k) with false by lia. replace (i =? k + pk) with false by lia. auto. }
          exists (fun i => pi (transp k (k + pk) i)). split; [apply (pb_comp n pi); auto|]. split.
          { intros q Hq. rewrite TO, P2; auto. }
          split.
          { eapply all_kelts_trans; [|exact P3|exact K2]. apply KI; auto. intros i Hi. apply pb_range; auto. }
          split; [eapply all_frame_trans; eauto|].
          pose proof (VK D _ m1 m2 VD WD (K2 (D, vkind D) (or_introl eq_refl))) as VD2. fold n in VD2.
          intros i j Hi Hij Hj. rewrite !VD2 by lia.
          destruct (Z.eq_dec i k) as [->|Nk].
          - assert (E1 : transp k (k + pk) k = k + pk) by (unfold transp; rewrite Z.eqb_refl; auto). rewrite E1.
            apply Hm'. unfold transp. split_ifs; lia.
          - assert (E1 : transp k (k + pk) i = i) by (unfold transp; split_ifs; lia). rewrite E1.
            apply P5; [lia| |]; unfold transp; split_ifs; lia. }
        apply wp_when; intros Ep.
        2:{ apply (Fin (transp k (k + pk))); auto.
            - intros p Hp i j Hij. assert (pk = 0) by lia. subst pk.
              assert (Ei : forall q, transp k (k + 0) q = q) by (intros q; unfold transp; split_ifs; lia).
              unfold kmap. destruct (snd p); cbn [fst snd]; rewrite Ei; reflexivity.
            - intros a _; auto. }
        assert (Npk : k <> k + pk) by lia.
        assert (IN : forall A, In A (olist U ++ olist V ++ olist C) -> wf A /\ allocated L A /\ 0 < rows A /\ 0 < cols A).
        { intros A Hin. apply HA. right; auto. }
        assert (TI : forall i, 0 <= i < n -> 0 <= transp k (k + pk) i < n) by (intros i Hi; apply pb_range; auto; apply pb_transp; lia).
        assert (TO : forall i, n <= i -> transp k (k + pk) i = i).
        { intros i Hi. unfold transp. replace (i =? k) with false by lia. replace (i =? k + pk) with false by lia. auto. }
        assert (A1 : act_ok (T := T) L (transp k (k + pk)) (swap_at D k (k + pk)) (Some (D, vkind D))).
        { cbn [act_ok fst snd]. intros m0 Q HQ. apply swap_at_wp; auto; [fold n; lia|fold n; lia|].
          intros m' Hm. apply HQ. apply vmoved_moved; auto. }
        assert (A2 : act_ok (T := T) L (transp k (k + pk)) (opt_when U (fun U =>
            armas_swap (armas_column U (k + pk)) (armas_column U k) ;; ret tt)) (option_map (fun A => (A, false)) U)).
        { destruct U as [A|]; cbn [act_ok opt_when option_map fst snd]; [|reflexivity].
          destruct (IN A) as (I1 & I2 & I3 & I4); [apply in_or_app; left; left; auto|]. specialize (HU A eq_refl).
          intros m0 Q HQ. apply swap_columns_wp; auto; lia. }
        assert (A3 : act_ok (T := T) L (transp k (k + pk)) (opt_when V (fun V =>
            armas_swap (armas_row V (k + pk)) (armas_row V k) ;; ret tt)) (option_map (fun A => (A, true)) V)).
        { destruct V as [A|]; cbn [act_ok opt_when option_map fst snd]; [|reflexivity].
          destruct (IN A) as (I1 & I2 & I3 & I4); [apply in_or_app; right; left; auto|]. specialize (HV A eq_refl).
          intros m0 Q HQ. apply swap_rows2_wp; auto; lia. }
        assert (A4 : act_ok (T := T) L (transp k (k + pk)) (opt_when C (fun C =>
            if armas_isvector C then swap_at C k (k + pk)
            else armas_swap (armas_column C (k + pk)) (armas_column C k) ;; ret tt))
            (option_map (fun A => (A, if armas_isvector A then vkind A else false)) C)).
        { destruct C as [A|]; cbn [act_ok opt_when option_map fst snd]; [|reflexivity].
          destruct (IN A) as (I1 & I2 & I3 & I4); [apply in_or_app; right; apply in_or_app; right; left; auto|].
          destruct (HC A eq_refl) as (C1 & C2).
          intros m0 Q HQ. destruct (armas_isvector A) eqn:EA.
          - apply isvector_isvec in EA. specialize (C1 EA). apply swap_at_wp; auto; try lia.
            intros m' Hm. apply HQ. apply vmoved_moved; auto.
          - assert (~ isvec A) by (intros X; apply isvector_isvec in X; congruence). specialize (C2 H).
            apply swap_columns_wp; auto; lia. }
        assert (PDl : pairwise_disjoint (oviews l)) by (rewrite OV; exact PD).
        assert (PD2 : forall o l', pairwise_disjoint (oviews (o :: l')) -> pairwise_disjoint (oviews l')).
        { intros [p|] l' H; [apply H|exact H]. }
        assert (KI' : forall p, In (Some p) l -> kin p (transp k (k + pk))) by (apply KI; auto).
        unfold l in PDl, KI'.
        eapply act_cons with (l := [option_map (fun A => (A, false)) U; option_map (fun A => (A, true)) V;
             option_map (fun A => (A, if armas_isvector A then vkind A else false)) C]); [exact PDl|exact A1|exact KI'| |].
        2:{ intros m2 K2 F2. apply (Fin (transp k (k + pk))); auto. }
        apply PD2 in PDl. intros m2 Q2 HQ2.
        eapply act_cons with (l := [option_map (fun A => (A, true)) V;
             option_map (fun A => (A, if armas_isvector A then vkind A else false)) C]); [exact PDl|exact A2| | |exact HQ2].
        { intros p Hp. apply KI'. right; auto. }
        apply PD2 in PDl. intros m3 Q3 HQ3.
        eapply act_cons with (l := [option_map (fun A => (A, if armas_isvector A then vkind A else false)) C]); [exact PDl|exact A3| | |exact HQ3].
        { intros p Hp. apply KI'. right; right; auto. }
        intros m4 Q4 HQ4. eapply act_last; [exact A4|exact HQ4].
      - intros m1 (pi & P1 & P2 & P3 & P4 & P5). apply wp_ret. split; [auto|]. exists pi. split; [|auto].
        intros i j Hi Hij Hj. fold n in Hj. apply P5; lia. }
    unfold armas_sort_eigenvec. rewrite Hvec. cbn [negb]. change (armas_size D) with n.
    destruct U as [AU|] eqn:EU, V as [AV|] eqn:EV, C as [AC|] eqn:EC;
      try (destruct (Main (U, V, C)) as (r & m' & E & -> & pi & G); [subst; reflexivity|
             first [left; discriminate|right; left; discriminate|right; right; discriminate]|];
           exists m', pi; split; [exact E|exact G]).
    assert (Y : wp (armas_sort_vec K D updown) L m (fun _ m' => qpost K D (updown >? 0) m m')).
    { unfold armas_sort_vec. apply isort_q; auto. }
    destruct Y as ([] & m' & E & pi & P1 & P2 & P4). fold n in P1.
    exists m', (fun i => if i <? n then pi i else i). split; [rewrite !run_bind; rewrite E; reflexivity|]. split; [exact P4|]. split.
    { eapply pb_ext; [|exact P1]. intros i Hi. replace (i <? n) with true by lia. auto. }
    split. { intros k Hk. replace (k <? n) with false by lia. auto. }
    split.
    - intros p Hp. unfold l in Hp. cbn [In option_map] in Hp. destruct Hp as [Hp|[Hp|[Hp|[Hp|[]]]]]; try discriminate.
      injection Hp as <-. refine (proj1 (vmoved_moved D (fun i => if i <? n then pi i else i) m m' VD WD _)).
      destruct P2 as (P2 & P3). split; [|auto]. intros k Hk. fold n in Hk. replace (k <? n) with true by lia. auto.
    - intros a Ha. apply P2. apply Ha. rewrite OV. left; auto. }
  destruct X as (m' & pi & E & S1 & B1 & B2 & K1 & F1). exists m', pi.
  split; [exact E|]. split.
  { intros i j Hi Hij Hj. specialize (S1 i j Hi Hij Hj). unfold lt in S1. destruct (updown >? 0); exact S1. }
  split; [apply pb_bij; auto|]. split; [auto|]. split.
  { apply VK; auto. apply K1. left; auto. }
  split.
  { intros A i k EA Hp. assert (HK : kelts (A, false) pi m m') by (apply K1; unfold l; rewrite EA; right; left; auto).
    apply (HK i k Hp). }
  split.
  { intros A k j EA Hp. assert (HK : kelts (A, true) pi m m') by (apply K1; unfold l; rewrite EA; right; right; left; auto).
    apply (HK k j Hp). }
  split.
  { intros A EA VA. assert (HK : kelts (A, if armas_isvector A then vkind A else false) pi m m')
      by (apply K1; unfold l; rewrite EA; right; right; right; left; auto).
    replace (armas_isvector A) with true in HK by (symmetry; apply isvector_isvec; auto).
    apply VK; auto. apply HA. right. rewrite EA. apply in_or_app; right; apply in_or_app; right; left; auto. }
  split.
  { intros A i k EA VA Hp. assert (HK : kelts (A, if armas_isvector A then vkind A else false) pi m m')
      by (apply K1; unfold l; rewrite EA; right; right; right; left; auto).
    replace (armas_isvector A) with false in HK.
    2:{ destruct (armas_isvector A) eqn:X; auto. apply isvector_isvec in X. contradiction. }
    apply (HK i k Hp). }
  intros a Ha. apply F1. rewrite OV. exact Ha.
Qed.
Print Assumptions C54_sort_eigenvec.

(* three values in a row vector, 2x3 U, 3x2 V and a vector C *)
Definition e_D : view := mkview 100 1 1 3.
Definition e_U : view := mkview 200 4 2 3.
Definition e_V : view := mkview 300 5 3 2.
Definition e_C : view := mkview 400 4 4 1.
Definition e_m (a : Z) : Z := if a =? 100 then 7 else if a =? 101 then 9 else if a =? 102 then 8 else a.

Example C54_nonvacuous : ltb_ok Znum /\ isvec e_D /\
  (forall A, In A [e_D; e_U; e_V; e_C] -> wf A /\ allocated cp_L A /\ 0 < rows A /\ 0 < cols A) /\
  pairwise_disjoint [e_D; e_U; e_V; e_C] /\
  exists m', armas_sort_eigenvec Znum e_D (Some e_U) (Some e_V) (Some e_C) (-1) cp_L e_m = Some (0, m') /\
    map (velt m' e_D) [0; 1; 2] = [9; 8; 7] /\ map (elt m' e_U 1) [0; 1; 2] = [205; 209; 201] /\
    map (velt m' e_C) [0; 1; 2; 3] = [401; 402; 400; 403].
Proof.
  split; [exact Z_ltb|]. split; [left; reflexivity|]. split.
  { intros A HA. cbn [In] in HA. destruct HA as [<-|[<-|[<-|[<-|[]]]]];
      (split; [unfold wf; cbn; lia|]; split; [|cbn; lia]; intros a (i & j & Hp & ->); unfold pos in Hp; cbn -[Z.mul Z.add] in *; unfold cp_L; lia). }
  split.
  { cbn [pairwise_disjoint]. repeat split; repeat constructor; intros a (i & j & Hp & E) (i' & j' & Hp' & E');
      unfold pos in *; cbn -[Z.mul Z.add] in *; lia. }
  eexists. split; [vm_compute; reflexivity|]. split; [reflexivity|]. split; reflexivity.
Qed.
