(* Properties_Base.v: C25 work splitting, C29 workspace, C30 cache buffers,
   C55 sizes, C57 workspace positions. *)
From Coq Require Import ZArith Lia Bool ZifyBool List.
From Verif Require Import MBase PBase.
Import ListNotations.
Local Open Scope Z_scope.

(* ---- C25 ---- *)

(* Missing: nblocks * ntotal >= 2^31, where it is false (C25_overflow_refuted). *)
Theorem C25_block_index_partial : forall nblocks ntotal, 0 < nblocks -> 0 <= ntotal -> nblocks * ntotal < 2 ^ 31 ->
  exists f, (forall n, 0 <= n <= nblocks -> armas_ac_block_index n nblocks ntotal = Some (f n)) /\
    f 0 = 0 /\ f nblocks = ntotal /\
    (forall n, 0 <= n < nblocks -> f n mod 4 = 0 /\ f n <= f (n + 1)).
Proof.
  intros nb nt Hb Ht Ho. exists (fun n => bix n nb nt). split; [|split; [|split]].
  - intros. apply block_index_eq; auto.
  - apply bix_0; auto.
  - apply bix_n.
  - intros n Hn. split; [|apply bix_mono; auto]. unfold bix. replace (n =? nb) with false by lia.
    rewrite Z.mul_comm. apply Z.mod_mul. lia.
Qed.
Print Assumptions C25_block_index_partial.

(* the product is computed in 32-bit int (accel.h:102) *)
Theorem C25_overflow_refuted : exists n nblocks ntotal, 0 <= n < nblocks /\ nblocks <= 16 /\ 0 <= ntotal < 2 ^ 31 /\
  armas_ac_block_index n nblocks ntotal = None.
Proof. exists 8, 16, 300000000. repeat split; lia. Qed.
Print Assumptions C25_overflow_refuted.

Definition inb (b : block) (i j : Z) : Prop :=
  b_row b <= i < b_row b + b_nrows b /\ b_column b <= j < b_column b + b_ncolumns b.

(* the blocks lie inside the rows-by-cols result, no element belongs to two of them,
   every element belongs to one *)
Definition partitions (l : list block) (rows cols : Z) : Prop :=
  (forall b i j, In b l -> inb b i j -> 0 <= i < rows /\ 0 <= j < cols) /\
  (forall b, In b l -> 0 <= b_row b /\ 0 <= b_column b /\ 0 <= b_nrows b /\ 0 <= b_ncolumns b /\
     b_row b + b_nrows b <= rows /\ b_column b + b_ncolumns b <= cols) /\
  ForallOrdPairs (fun b b' => forall i j, ~ (inb b i j /\ inb b' i j)) l /\
  (forall i j, 0 <= i < rows -> 0 <= j < cols -> exists b, In b l /\ inb b i j).

Lemma bix_disj : forall nb nt a b x, 0 < nb -> 0 <= nt -> 0 <= a -> a < b -> b < nb ->
  ~ (bix a nb nt <= x < bix (a + 1) nb nt /\ bix b nb nt <= x < bix (b + 1) nb nt).
Proof.
  intros nb nt a b x Hb Ht Ha Hab Hn.
  assert (bix (a + 1) nb nt <= bix b nb nt).
  { apply (mono_le (fun k => bix k nb nt) nb); try lia. intros; apply bix_mono; auto. }
  lia.
Qed.

Lemma blocks1_partition : forall ntask major minor (colwise : bool), 0 < ntask -> 0 <= major -> 0 <= minor ->
  partitions (map (fun k => if colwise then mkblock 0 (bix k ntask major) minor (bix (k + 1) ntask major - bix k ntask major)
                    else mkblock (bix k ntask major) 0 (bix (k + 1) ntask major - bix k ntask major) minor) (zrange ntask))
    (if colwise then minor else major) (if colwise then major else minor).
Proof.
  intros nt ma mi cw Hn Hma Hmi.
  assert (R : forall k, 0 <= k < nt -> 0 <= bix k nt ma /\ bix (k + 1) nt ma <= ma /\ bix k nt ma <= bix (k + 1) nt ma).
  { intros k Hk. pose proof (bix_range k nt ma). pose proof (bix_range (k + 1) nt ma). pose proof (bix_mono k nt ma). lia. }
  split; [|split; [|split]].
  - intros b i j Hb Hi. apply in_map_iff in Hb as (k & <- & Hk). apply zrange_in in Hk. specialize (R k Hk).
    unfold inb in Hi. destruct cw; cbn [b_row b_column b_nrows b_ncolumns] in Hi; lia.
  - intros b Hb. apply in_map_iff in Hb as (k & <- & Hk). apply zrange_in in Hk. specialize (R k Hk).
    destruct cw; cbn [b_row b_column b_nrows b_ncolumns]; lia.
  - apply FOP_map_seq. intros a b Ha Hab Hb i j. rewrite Nat.add_0_l, Z2Nat.id in Hb by lia.
    unfold inb. destruct cw; cbn [b_row b_column b_nrows b_ncolumns].
    + pose proof (bix_disj nt ma a b j). lia.
    + pose proof (bix_disj nt ma a b i). lia.
  - intros i j Hi Hj. set (x := if cw then j else i).
    destruct (split_exists (fun k => bix k nt ma) nt ma) with (x := x) as (k & Hk & Hx); auto.
    { apply bix_0; auto. } { apply bix_n. } { unfold x; destruct cw; lia. }
    eexists. split; [apply in_map, zrange_in; exact Hk|]. unfold inb, x in *.
    destruct cw; cbn [b_row b_column b_nrows b_ncolumns]; lia.
Qed.

(* column or row blocks of the worker pool *)
Theorem C25_blocks_partial : forall rows cols ntask, 0 <= rows -> 0 <= cols -> 0 < ntask ->
  ntask * Z.max rows cols < 2 ^ 31 ->
  exists l, schedule_blocks rows cols ntask = Some l /\ Z.of_nat (length l) = ntask /\ partitions l rows cols.
Proof.
  intros rows cols nt Hr Hc Hn Ho. unfold schedule_blocks.
  set (cw := cols >? rows). set (mi := if cw then rows else cols). set (ma := if cw then cols else rows).
  assert (Hma : 0 <= ma) by (unfold ma; destruct cw; lia).
  assert (Hmi : 0 <= mi) by (unfold mi; destruct cw; lia).
  assert (Hm : ma <= Z.max rows cols) by (unfold ma; destruct cw; lia).
  eexists. split; [|split].
  - apply otraverse_map with (g := fun k => if cw then mkblock 0 (bix k nt ma) mi (bix (k + 1) nt ma - bix k nt ma)
                    else mkblock (bix k nt ma) 0 (bix (k + 1) nt ma - bix k nt ma) mi).
    intros k Hk. apply zrange_in in Hk. unfold armas_ac_define_block.
    rewrite !block_index_eq by (auto; try lia; nia). reflexivity.
  - rewrite map_length. unfold zrange. rewrite map_length, seq_length. lia.
  - pose proof (blocks1_partition nt ma mi cw Hn Hma Hmi) as P.
    replace (if cw then mi else ma) with rows in P by (unfold mi, ma; destruct cw; auto).
    replace (if cw then ma else mi) with cols in P by (unfold mi, ma; destruct cw; auto). exact P.
Qed.
Print Assumptions C25_blocks_partial.

(* blocks of the recursively created threads; more fuel than threads is enough *)
Theorem C25_threads_partial : forall rows cols nthreads fuel, 0 <= rows -> 0 <= cols -> 0 < nthreads ->
  nthreads * Z.max rows cols < 2 ^ 31 -> (Z.to_nat nthreads <= fuel)%nat ->
  exists l, threaded_blocks fuel rows cols 0 nthreads = Some l /\ Z.of_nat (length l) = nthreads /\ partitions l rows cols.
Proof.
  intros rows cols nt fuel Hr Hc Hn Ho Hf.
  set (cw := rows <=? cols). set (mi := if cw then rows else cols). set (ma := if cw then cols else rows).
  assert (Hma : 0 <= ma) by (unfold ma; destruct cw; lia).
  assert (Hmi : 0 <= mi) by (unfold mi; destruct cw; lia).
  assert (Hm : ma <= Z.max rows cols) by (unfold ma; destruct cw; lia).
  set (g := fun k => if cw then mkblock 0 (bix k nt ma) mi (bix (k + 1) nt ma - bix k nt ma)
                    else mkblock (bix k nt ma) 0 (bix (k + 1) nt ma - bix k nt ma) mi).
  assert (X : forall d fuel k, (k + d = Z.to_nat nt)%nat -> (0 < d)%nat -> (d <= fuel)%nat ->
     threaded_blocks fuel rows cols (Z.of_nat k) nt = Some (map g (map Z.of_nat (seq k d)))).
  { induction d; intros fu k Hkd Hd Hfu; [lia|]. destruct fu as [|fu]; [lia|]. cbn [threaded_blocks seq map].
    assert (E : (if rows <=? cols
      then obind (armas_ac_block_index (Z.of_nat k) nt cols) (fun s =>
             obind (armas_ac_block_index (Z.of_nat k + 1) nt cols) (fun e => Some (mkblock 0 s rows (e - s))))
      else obind (armas_ac_block_index (Z.of_nat k) nt rows) (fun s =>
             obind (armas_ac_block_index (Z.of_nat k + 1) nt rows) (fun e => Some (mkblock s 0 (e - s) cols))))
      = Some (g (Z.of_nat k))).
    { unfold g, mi, ma in *. fold cw. destruct cw; rewrite !block_index_eq by (auto; try lia; nia); reflexivity. }
    rewrite E. cbn [obind]. destruct (Z.of_nat k + 1 =? nt) eqn:E1.
    - assert (d = 0%nat) by lia. subst d. reflexivity.
    - replace (Z.of_nat k + 1) with (Z.of_nat (S k)) by lia. rewrite IHd by lia. reflexivity. }
  exists (map g (zrange nt)). split; [|split].
  - unfold zrange. apply (X (Z.to_nat nt) fuel 0%nat); lia.
  - rewrite map_length. unfold zrange. rewrite map_length, seq_length. lia.
  - pose proof (blocks1_partition nt ma mi cw Hn Hma Hmi) as P.
    replace (if cw then mi else ma) with rows in P by (unfold mi, ma; destruct cw; auto).
    replace (if cw then ma else mi) with cols in P by (unfold mi, ma; destruct cw; auto). exact P.
Qed.
Print Assumptions C25_threads_partial.

(* no threads: division by zero (threaded/gemm.c:104-107; the count comes from the matrix size) *)
Theorem C25_zero_threads_refuted : exists rows cols, 0 <= rows /\ 0 <= cols /\
  forall fuel, threaded_blocks fuel rows cols 0 0 = None.
Proof.
  exists 5, 5. split; [lia|]. split; [lia|]. intros [|fuel]; reflexivity.
Qed.
Print Assumptions C25_zero_threads_refuted.

(* two-dimensional tiles *)
Theorem C25_tiles_partial : forall rows cols rtiles ctiles, 0 <= rows -> 0 <= cols -> 0 < rtiles -> 0 < ctiles ->
  rtiles * rows < 2 ^ 31 -> ctiles * cols < 2 ^ 31 ->
  exists l, schedule_tiles rows cols rtiles ctiles = Some l /\ partitions l rows cols.
Proof.
  intros rows cols nr nc Hr Hc Hnr Hnc Hor Hoc.
  set (g := fun j i => mkblock (bix i nr rows) (bix j nc cols) (bix (i + 1) nr rows - bix i nr rows)
                               (bix (j + 1) nc cols - bix j nc cols)).
  set (ll := map (fun j => map (g j) (zrange nr)) (zrange nc)).
  assert (R : forall k, 0 <= k < nr -> 0 <= bix k nr rows /\ bix (k + 1) nr rows <= rows /\ bix k nr rows <= bix (k + 1) nr rows).
  { intros k Hk. pose proof (bix_range k nr rows). pose proof (bix_range (k + 1) nr rows). pose proof (bix_mono k nr rows). lia. }
  assert (C : forall k, 0 <= k < nc -> 0 <= bix k nc cols /\ bix (k + 1) nc cols <= cols /\ bix k nc cols <= bix (k + 1) nc cols).
  { intros k Hk. pose proof (bix_range k nc cols). pose proof (bix_range (k + 1) nc cols). pose proof (bix_mono k nc cols). lia. }
  assert (IN : forall b, In b (concat ll) -> exists i j, 0 <= i < nr /\ 0 <= j < nc /\ b = g j i).
  { intros b Hb. apply in_concat in Hb as (l & Hl & Hb). apply in_map_iff in Hl as (j & <- & Hj).
    apply in_map_iff in Hb as (i & <- & Hi). apply zrange_in in Hi, Hj. eauto. }
  exists (concat ll). split; [|split; [|split; [|split]]].
  - unfold schedule_tiles. rewrite otraverse_map with (g := fun j => map (g j) (zrange nr)); [reflexivity|].
    intros j Hj. apply zrange_in in Hj. rewrite !block_index_eq by (auto; lia). cbn [obind].
    apply otraverse_map. intros i Hi. apply zrange_in in Hi. rewrite !block_index_eq by (auto; lia). reflexivity.
  - intros b i j Hb Hi. apply IN in Hb as (bi & bj & H1 & H2 & ->). specialize (R bi H1). specialize (C bj H2).
    unfold inb, g in Hi. cbn [b_row b_column b_nrows b_ncolumns] in Hi. lia.
  - intros b Hb. apply IN in Hb as (bi & bj & H1 & H2 & ->). specialize (R bi H1). specialize (C bj H2).
    unfold g. cbn [b_row b_column b_nrows b_ncolumns]. lia.
  - apply FOP_concat.
    + intros l Hl. apply in_map_iff in Hl as (j & <- & Hj). apply FOP_map_seq.
      intros a b Ha Hab Hb x y. rewrite Nat.add_0_l, Z2Nat.id in Hb by lia.
      unfold inb, g. cbn [b_row b_column b_nrows b_ncolumns]. pose proof (bix_disj nr rows a b x). lia.
    + apply FOP_map_seq. intros a b Ha Hab Hb u v Hu Hv x y. rewrite Nat.add_0_l, Z2Nat.id in Hb by lia.
      apply in_map_iff in Hu as (i & <- & Hi). apply in_map_iff in Hv as (i' & <- & Hi').
      unfold inb, g. cbn [b_row b_column b_nrows b_ncolumns]. pose proof (bix_disj nc cols a b y). lia.
  - intros i j Hi Hj.
    destruct (split_exists (fun k => bix k nr rows) nr rows) with (x := i) as (ki & Hki & Hx); auto.
    { apply bix_0; auto. } { apply bix_n. }
    destruct (split_exists (fun k => bix k nc cols) nc cols) with (x := j) as (kj & Hkj & Hy); auto.
    { apply bix_0; auto. } { apply bix_n. }
    exists (g kj ki). split.
    + apply in_concat. exists (map (g kj) (zrange nr)). split.
      * apply in_map_iff. exists kj. split; auto. apply zrange_in; auto.
      * apply in_map, zrange_in; auto.
    + unfold inb, g. cbn [b_row b_column b_nrows b_ncolumns]. lia.
Qed.
Print Assumptions C25_tiles_partial.

(* the number of tiles is positive for every size, so the tiles always cover the result *)
Theorem C25_tiled_mult_partial : forall M N wb, 0 <= M -> 0 <= N -> 0 < wb ->
  let '(nrow, ncol) := worker_tiles M N wb in
  0 < nrow /\ 0 < ncol /\
  (nrow * M < 2 ^ 31 -> ncol * N < 2 ^ 31 ->
   exists l, schedule_tiles M N nrow ncol = Some l /\ partitions l M N).
Proof.
  intros M N wb HM HN Hw. unfold worker_tiles.
  assert (X : forall x (q : Z), 0 <= x -> 0 <= q -> 0 < (if x <? wb then 1 else Z.quot x wb + q)).
  { intros x q Hx Hq. destruct (x <? wb) eqn:E; [lia|]. rewrite Z.quot_div_nonneg by lia.
    assert (1 <= x / wb) by (apply Z.div_le_lower_bound; lia). lia. }
  assert (Q : forall b : bool, 0 <= if b then 1 else 0) by (intros []; lia).
  split; [apply X; auto|]. split; [apply X; auto|].
  intros H1 H2. apply C25_tiles_partial; auto; apply X; auto.
Qed.
Print Assumptions C25_tiled_mult_partial.

Example C25_nonvacuous : 3 * 1000 < 2 ^ 31 /\
  armas_ac_block_index 1 3 1000 = Some 332 /\ armas_ac_block_index 2 3 1000 = Some 664 /\
  worker_tiles 300 130 64 = (5, 2) /\
  schedule_tiles 7 9 2 2 = Some [mkblock 0 0 0 4; mkblock 0 0 7 4; mkblock 0 4 0 5; mkblock 0 4 7 5].
Proof. repeat split; try lia; reflexivity. Qed.

(* ---- C29 ---- *)

Inductive wop := Rbytes (n : Z) | Rcount (count sz : Z) | Rbits (count : Z) | Reset | Setpos (p : Z).

(* sizes are size_t values; Missing in the theorem: count*sz or count+7 beyond 2^64 *)
Definition wop_ok (o : wop) : Prop :=
  match o with
  | Rbytes n => 0 <= n < 2 ^ 64
  | Rcount c s => 0 <= c /\ 0 <= s /\ c * s < 2 ^ 64
  | Rbits c => 0 <= c < 2 ^ 64 - 7
  | Reset => True
  | Setpos p => 0 <= p < 2 ^ 64
  end.

(* the regions in use, from the point of view of the caller: (address, length) *)
Definition grant (r : option Z * wbuf) (len : Z) (live : list (Z * Z)) : wbuf * list (Z * Z) :=
  match r with (Some p, W') => (W', (p, len) :: live) | (None, W') => (W', live) end.

Definition wstep (s : wbuf * list (Z * Z)) (o : wop) : wbuf * list (Z * Z) :=
  let '(W, live) := s in
  match o with
  | Rbytes n => grant (armas_wreserve_bytes W n) n live
  | Rcount c sz => grant (armas_wreserve W c sz) (c * sz) live
  | Rbits c => grant (armas_wreserve_bits W c) ((c + 7) / 8) live
  | Reset => (armas_wreset W, [])
  (* moving the position gives up the regions that reach above it *)
  | Setpos p => let W' := armas_wsetpos W p in
      (W', filter (fun r => fst r + snd r <=? w_buf W' + w_offset W') live)
  end.
Definition wrun (W : wbuf) (ops : list wop) : wbuf * list (Z * Z) := fold_left wstep ops (W, []).

Definition apart (r r' : Z * Z) : Prop := fst r + snd r <= fst r' \/ fst r' + snd r' <= fst r.

Definition winv (buf bytes : Z) (s : wbuf * list (Z * Z)) : Prop :=
  let '(W, live) := s in
  w_buf W = buf /\ w_bytes W = bytes /\ wok W /\
  Forall (fun r => 0 <= snd r /\ buf <= fst r /\ fst r + snd r <= buf + w_offset W) live /\
  ForallOrdPairs apart live.

Lemma grant_inv : forall buf bytes W live n, winv buf bytes (W, live) -> 0 <= n ->
  winv buf bytes (grant (armas_wreserve_bytes W n) n live).
Proof.
  intros buf bytes W live n (E1 & E2 & Hok & HF & HP) Hn. rewrite reserve_bytes_eq by auto.
  destruct Hok as (O1 & O2).
  destruct (w_offset W + n <=? w_bytes W) eqn:E; unfold grant.
  - repeat split; cbn [w_buf w_bytes w_offset]; auto; try lia.
    + constructor; cbn [fst snd]; [lia|]. eapply Forall_impl; [|exact HF]. cbv beta. intros r. lia.
    + constructor; auto. eapply Forall_impl; [|exact HF]. cbv beta. intros r. unfold apart. cbn [fst snd]. lia.
  - repeat split; auto; lia.
Qed.

Lemma wstep_inv : forall buf bytes s o, winv buf bytes s -> wop_ok o -> winv buf bytes (wstep s o).
Proof.
  intros buf bytes [W live] o H Ho. destruct o; cbn [wstep wop_ok] in *.
  - apply grant_inv; auto; lia.
  - unfold armas_wreserve. rewrite u64_id by nia. apply grant_inv; auto. nia.
  - unfold armas_wreserve_bits. rewrite u64_id by lia. apply grant_inv; auto. apply Z.div_pos; lia.
  - destruct H as (E1 & E2 & (O1 & O2) & _). repeat split; cbn [armas_wreset w_buf w_bytes w_offset]; auto; try lia; constructor.
  - destruct H as (E1 & E2 & (O1 & O2) & HF & HP).
    assert (K : 0 <= w_offset (armas_wsetpos W p) <= w_bytes W /\ w_buf (armas_wsetpos W p) = buf /\
                w_bytes (armas_wsetpos W p) = w_bytes W).
    { unfold armas_wsetpos. destruct (p <? w_bytes W) eqn:E; cbn [w_buf w_offset w_bytes]; lia. }
    destruct K as (K1 & K2 & K3). repeat split; auto; try lia.
    + apply Forall_forall. intros r Hr. apply filter_In in Hr as (Hr & Hc). rewrite Forall_forall in HF.
      specialize (HF r Hr). lia.
    + clear -HP. induction HP; cbn [filter]; [constructor|].
      destruct (_ <=? _); auto. constructor; auto. apply Forall_forall. intros r Hr. apply filter_In in Hr as (Hr & _).
      rewrite Forall_forall in H. auto.
Qed.

(* Missing: requests whose byte count wraps around (C29_reserve_wrap_refuted). *)
Theorem C29_regions_partial : forall buf bytes ops, 0 <= bytes < 2 ^ 64 -> Forall wop_ok ops ->
  let '(W, live) := wrun (armas_walloc buf bytes) ops in
  Forall (fun r => 0 <= snd r /\ buf <= fst r /\ fst r + snd r <= buf + bytes) live /\
  ForallOrdPairs apart live.
Proof.
  intros buf bytes ops Hb Hops.
  assert (X : winv buf bytes (wrun (armas_walloc buf bytes) ops)).
  { unfold wrun. assert (I : winv buf bytes (armas_walloc buf bytes, [])).
    { repeat split; cbn [armas_walloc w_buf w_bytes w_offset]; try lia; constructor. }
    revert I. generalize (armas_walloc buf bytes, @nil (Z * Z)).
    induction ops; intros s I; cbn [fold_left]; auto. inversion Hops; subst. apply IHops; auto.
    apply wstep_inv; auto. }
  destruct (wrun (armas_walloc buf bytes) ops) as [W live]. destruct X as (E1 & E2 & (O1 & O2) & HF & HP).
  split; auto. eapply Forall_impl; [|exact HF]. cbv beta. intros r. lia.
Qed.
Print Assumptions C29_regions_partial.

(* a request is granted exactly when it fits; a refused request changes nothing *)
Theorem C29_reserve : forall W n, wok W -> 0 <= n < 2 ^ 64 ->
  let '(r, W') := armas_wreserve_bytes W n in
  (n <= armas_wbytes W -> r = Some (w_buf W + w_offset W) /\ armas_wbytes W' = armas_wbytes W - n) /\
  (armas_wbytes W < n -> r = None /\ W' = W).
Proof.
  intros W n Hok Hn. rewrite reserve_bytes_eq by (auto; lia). destruct Hok as (O1 & O2).
  unfold armas_wbytes. rewrite u64_id by lia.
  destruct (w_offset W + n <=? w_bytes W) eqn:E; split; intros H; try lia; auto.
  split; auto. cbn [w_bytes w_offset]. rewrite u64_id by lia. lia.
Qed.
Print Assumptions C29_reserve.

(* count*sz is computed modulo 2^64: 2^61+1 doubles are granted from 64 bytes (armas.h:611-614) *)
Theorem C29_reserve_wrap_refuted : exists W count sz p W', wok W /\ 0 <= count < 2 ^ 64 /\ 0 <= sz < 2 ^ 64 /\
  armas_wreserve W count sz = (Some p, W') /\ ~ p + count * sz <= w_buf W + w_bytes W.
Proof.
  exists (mkwbuf 4096 64 0), (2 ^ 61 + 1), 8. eexists. eexists.
  split; [unfold wok; cbn [w_bytes w_offset]; lia|]. split; [lia|]. split; [lia|].
  split; [vm_compute; reflexivity|]. vm_compute. congruence.
Qed.
Print Assumptions C29_reserve_wrap_refuted.

Example C29_nonvacuous :
  wrun (armas_walloc 4096 100) [Rcount 3 8; Rbytes 10; Rbits 17; Rbytes 80; Setpos 40; Rbytes 16] =
  (mkwbuf 4096 100 56, [(4136, 16); (4130, 3); (4120, 10); (4096, 24)]) /\
  Forall wop_ok [Rcount 3 8; Rbytes 10; Rbits 17; Rbytes 80; Setpos 40; Rbytes 16].
Proof. split; [reflexivity|]. repeat constructor; cbn; lia. Qed.

(* ---- C57 ---- *)

Definition is_reserve (o : wop) : Prop := match o with Rbytes _ | Rcount _ _ | Rbits _ => True | _ => False end.

(* saving the position, making any reservations and restoring the position gives back the
   workspace as it was *)
Theorem C57_save_restore : forall W live ops, wok W -> Forall wop_ok ops -> Forall is_reserve ops ->
  armas_wsetpos (fst (fold_left wstep ops (W, live))) (armas_wpos W) = W.
Proof.
  intros W live ops Hok Ho Hr.
  assert (X : forall W1 live, (wok W1 /\ w_buf W1 = w_buf W /\ w_bytes W1 = w_bytes W /\ w_offset W <= w_offset W1) ->
     let W' := fst (fold_left wstep ops (W1, live)) in
     wok W' /\ w_buf W' = w_buf W /\ w_bytes W' = w_bytes W /\ w_offset W <= w_offset W').
  { cbv zeta. clear live. induction ops as [|o ops IH]; intros W1 live I; [exact I|]. cbn [fold_left].
    inversion Ho; inversion Hr; subst.
    assert (S : exists W2 live2, wstep (W1, live) o = (W2, live2) /\
       wok W2 /\ w_buf W2 = w_buf W /\ w_bytes W2 = w_bytes W /\ w_offset W <= w_offset W2).
    { assert (G : forall n len, 0 <= n -> exists W2 live2, grant (armas_wreserve_bytes W1 n) len live = (W2, live2) /\
       wok W2 /\ w_buf W2 = w_buf W /\ w_bytes W2 = w_bytes W /\ w_offset W <= w_offset W2).
      { intros n len Hn. destruct I as (I1 & I2 & I3 & I4). rewrite reserve_bytes_eq by auto.
        destruct (_ <=? _) eqn:E; unfold grant; eexists; eexists; (split; [reflexivity|]); auto.
        unfold wok in *. cbn [w_buf w_bytes w_offset]. lia. }
      destruct o; cbn [wop_ok is_reserve] in *; try contradiction.
      - cbn [wstep]. apply G. lia.
      - cbn [wstep]. unfold armas_wreserve. rewrite u64_id by nia. apply G. nia.
      - cbn [wstep]. unfold armas_wreserve_bits. rewrite u64_id by lia. apply G. apply Z.div_pos; lia. }
    destruct S as (W2 & live2 & -> & S). apply IH; auto. }
  cbv zeta in X. destruct (X W live) as (X1 & X2 & X3 & X4); [repeat split; destruct Hok; auto; lia|]. clear X. unfold armas_wsetpos, armas_wpos.
  destruct Hok as (O1 & O2). destruct X1 as (Y1 & Y2).
  destruct W as [b n o]. destruct (fst (fold_left wstep ops (_, live))) as [b' n' o']. cbn [w_buf w_bytes w_offset] in *. subst b' n'.
  destruct (o <? n) eqn:E; auto. f_equal. lia.
Qed.
Print Assumptions C57_save_restore.

Example C57_nonvacuous : wok (mkwbuf 4096 100 20) /\ Forall wop_ok [Rbytes 30; Rcount 4 8] /\
  Forall is_reserve [Rbytes 30; Rcount 4 8] /\
  fst (fold_left wstep [Rbytes 30; Rcount 4 8] (mkwbuf 4096 100 20, [])) = mkwbuf 4096 100 82.
Proof. split; [unfold wok; cbn; lia|]. repeat split; repeat constructor; cbn; lia. Qed.

(* ---- C55 ---- *)

(* Missing: products beyond 2^31-1, where the result is undefined (C55_size_refuted). *)
Theorem C55_size_partial : forall rows cols, 0 <= rows < 2 ^ 31 -> 0 <= cols < 2 ^ 31 -> rows * cols < 2 ^ 31 ->
  armas_size_c rows cols = Some (rows * cols).
Proof. intros. apply i32_some. nia. Qed.
Print Assumptions C55_size_partial.

Theorem C55_size_refuted : exists rows cols, 0 <= rows < 2 ^ 31 /\ 0 <= cols < 2 ^ 31 /\
  0 <= rows * cols < 2 ^ 63 /\ armas_size_c rows cols = None.
Proof. exists 65536, 65536. repeat split; lia. Qed.
Print Assumptions C55_size_refuted.

(* the elements of an allocated matrix start at a cache line and lie inside the allocation;
   sz = 4 (float) or 8 (double), calloc returns addresses aligned for the element type.
   Missing: r*c beyond 2^31-1. *)
Theorem C55_init_partial : forall data sz r c, 0 < data -> (sz = 4 \/ sz = 8) -> data mod sz = 0 ->
  0 < r < 2 ^ 31 -> 0 < c < 2 ^ 31 -> r * c < 2 ^ 31 ->
  exists A, armas_init data sz r c = Some A /\ a_rows A = r /\ a_cols A = c /\ a_step A = r /\
    a_elems A mod 64 = 0 /\ data <= a_elems A /\ a_elems A + r * c * sz <= data + a_bytes A /\
    a_data A = data /\ a_bytes A < 2 ^ 64.
Proof.
  intros data sz r c Hd Hsz Hal Hr Hc Hrc. unfold armas_init.
  replace ((r <=? 0) || (c <=? 0)) with false by lia. rewrite i32_some by nia. cbn [obind].
  eexists. split; [reflexivity|]. cbn [a_rows a_cols a_step a_elems a_bytes a_data].
  unfold ALIGNSIZE, ALIGNOFFSET, CACHELINE. 
  assert (Q : 1 <= 64 / sz <= 16) by (destruct Hsz; subst; cbn; lia).
  rewrite u64_id by nia.
  pose proof (Z_div_mod_eq_full data 64). pose proof (Z.mod_pos_bound data 64).
  assert (D : data mod 64 = 0 \/ data mod 64 >= sz).
  { assert (E : exists q, data mod 64 = sz * q).
    { exists (data / sz - (64 / sz) * (data / 64)). pose proof (Z_div_mod_eq_full data sz).
      destruct Hsz; subst sz.
      - change (64 / 4) with 16. lia.
      - change (64 / 8) with 8. lia. }
    destruct E as (q & E). nia. }
  repeat split; auto.
  - destruct (data mod 64 =? 0) eqn:E; [rewrite Z.add_0_r; lia|].
    replace (data + (64 - data mod 64)) with ((data / 64 + 1) * 64) by lia. apply Z.mod_mul. lia.
  - destruct (data mod 64 =? 0); lia.
  - assert (P : 64 = sz * (64 / sz)) by (destruct Hsz; subst; reflexivity).
    destruct (data mod 64 =? 0) eqn:E; nia.
  - nia.
Qed.
Print Assumptions C55_init_partial.

Theorem C55_init_refuted : exists data sz r c, 0 < data /\ sz = 4 /\ 0 < r < 2 ^ 31 /\ 0 < c < 2 ^ 31 /\
  armas_init data sz r c = None.
Proof. exists 4096, 4, 65536, 32768. repeat split; lia. Qed.
Print Assumptions C55_init_refuted.

Example C55_nonvacuous : 30000 * 40000 < 2 ^ 31 /\ 4112 mod 8 = 0 /\
  armas_init 4112 8 3 5 = Some (mkalloc 3 5 3 4112 176 4160).
Proof. repeat split; lia. Qed.

(* ---- C30 ---- *)

(* a block of ncols columns of stp items of p bytes at address a *)
Definition blk (a ncols stp p : Z) : Z * Z := (a, ncols * stp * p).
Definition inside (r : Z * Z) (lo hi : Z) : Prop := lo <= fst r /\ fst r + snd r <= hi.

(* an allocated cache buffer: aligned, at least as long as requested, inside the allocation *)
Theorem C30_init : forall ptr cmem l1mem, 0 <= ptr -> 0 <= cmem < 2 ^ 63 ->
  let '(cb, asize) := armas_cbuf_init ptr cmem l1mem in
  c_data cb mod 64 = 0 /\ ptr <= c_data cb /\ c_data cb + c_len cb <= ptr + asize /\
  cmem <= c_len cb /\ c_cmem cb = cmem.
Proof.
  intros ptr cmem l1 Hp Hc. unfold armas_cbuf_init. pose proof (alloc_size_spec cmem ltac:(lia)).
  set (a := if alloc_size cmem <? CACHEMIN then CACHEMIN else alloc_size cmem).
  assert (Ha : alloc_size cmem <= a < 2 ^ 64) by (unfold a, CACHEMIN; destruct (alloc_size cmem <? 1024) eqn:E; lia).
  pose proof (cache_aligned_spec ptr a Hp ltac:(unfold CACHELINE; lia)) as X. destruct (cache_aligned ptr a) as [d l].
  unfold CACHELINE in X. cbn [c_data c_len c_cmem]. lia.
Qed.
Print Assumptions C30_init.

(* the per-thread buffer *)
Theorem C30_thread_global : forall ptr hdr cmem l1mem, 0 <= ptr -> 0 <= hdr -> 4096 <= cmem < 2 ^ 63 ->
  let '(cb, asize) := armas_cbuf_thread_global ptr hdr cmem l1mem in
  c_data cb mod 64 = 0 /\ ptr + hdr <= c_data cb /\ c_len cb <= c_cmem cb /\
  c_data cb + c_cmem cb <= ptr + asize /\ cmem - 64 <= c_len cb.
Proof.
  intros ptr hdr cmem l1 Hp Hh Hc. unfold armas_cbuf_thread_global, armas_cbuf_make. pose proof (alloc_size_spec cmem ltac:(lia)).
  pose proof (cache_aligned_spec (ptr + hdr) cmem ltac:(lia) ltac:(unfold CACHELINE; lia)) as X. destruct (cache_aligned (ptr + hdr) cmem) as [d l].
  unfold CACHELINE in X. cbn [c_data c_len c_cmem]. lia.
Qed.
Print Assumptions C30_thread_global.

Definition good_blocks2 (cb : cbuf) (ch : cache) (p hi : Z) : Prop :=
  let A := blk (Acpy ch) (MB ch) (ab_step ch) p in
  let B := blk (Bcpy ch) (NB ch) (ab_step ch) p in
  inside A (c_data cb) hi /\ inside B (c_data cb) hi /\ apart A B /\
  KB ch <= ab_step ch /\ Acpy ch mod 64 = 0 /\ Bcpy ch mod 64 = 0 /\ (ab_step ch * p) mod 64 = 0.

Definition good_blocks3 (cb : cbuf) (ch : cache) (p hi : Z) : Prop :=
  let A := blk (Acpy ch) (MB ch) (ab_step ch) p in
  let B := blk (Bcpy ch) (NB ch) (ab_step ch) p in
  let D := blk (dC ch) (NB ch) (c_step ch) p in
  inside A (c_data cb) hi /\ inside B (c_data cb) hi /\ inside D (c_data cb) hi /\
  apart A B /\ apart A D /\ apart B D /\
  KB ch <= ab_step ch /\ Acpy ch mod 64 = 0 /\ Bcpy ch mod 64 = 0 /\ dC ch mod 64 = 0 /\ (ab_step ch * p) mod 64 = 0.

Lemma mul64 : forall a k, a mod 64 = 0 -> k mod 64 = 0 -> (a + k) mod 64 = 0.
Proof. intros. rewrite Z.add_mod, H, H0 by lia. reflexivity. Qed.

Lemma stp64 : forall n k p, 0 < p -> (64 / p) * p = 64 -> k mod (64 / p) = 0 -> (n * k * p) mod 64 = 0.
Proof.
  intros n k p Hp H64' Hk. assert (64 / p <> 0) by nia.
  pose proof (Z_div_mod_eq_full k (64 / p)) as E. rewrite Hk, Z.add_0_r in E.
  replace (n * k * p) with ((n * (k / (64 / p))) * 64); [apply Z.mod_mul; lia|].
  rewrite E at 2. rewrite <- H64' at 2. ring.
Qed.

(* two-way split.  Missing: buffers of at most 1024 bytes and configurations that give a block
   height below a cache line, where it is false (C30_setup2_refuted). *)
Theorem C30_setup2_partial : forall cb mb nb kb p, 0 <= c_data cb -> c_data cb mod 64 = 0 ->
  1024 < c_len cb -> 0 < mb -> 0 < nb -> 0 < kb -> 0 < p -> (64 / p) * p = 64 ->
  let ch := armas_cache_setup2 cb mb nb kb p in
  64 / p <= KB ch ->
  good_blocks2 cb ch p (c_data cb + c_len cb).
Proof.
  intros cb mb nb kb p Hd0 Hd Hl Hm Hn Hk Hp H64. unfold armas_cache_setup2.
  destruct (split2_sizes (c_len cb) mb nb kb p) as [[mn nn] kn] eqn:E. cbv zeta. cbn [KB]. intros HK.
  unfold split2_sizes in E. replace (c_len cb <=? CACHEMIN) with false in E by (unfold CACHEMIN; lia).
  injection E as Emn Enn Ekn. rewrite Ekn in Emn, Enn.
  set (S := c_len cb / p) in *. set (k0 := Z.sqrt (kb * S / (mb + nb))) in *.
  assert (C0 : 0 < 64 / p) by nia.
  assert (S0 : 0 <= S) by (apply Z.div_pos; lia).
  assert (S1 : S * p <= c_len cb) by (pose proof (Z.mul_div_le (c_len cb) p); unfold S; lia).
  assert (K0 : 0 <= k0) by apply Z.sqrt_nonneg.
  assert (K1 : k0 * k0 <= kb * S / (mb + nb)).
  { apply Z.sqrt_spec. apply Z.div_pos; nia. }
  destruct (kn_round k0 (64 / p) K0 C0) as (R1 & R2 & R3). unfold CACHELINE in Ekn. rewrite Ekn in R1, R2.
  assert (K2 : kn * kn * (mb + nb) <= kb * S).
  { assert (kn * kn <= kb * S / (mb + nb)) by nia. pose proof (Z.mul_div_le (kb * S) (mb + nb)). nia. }
  pose proof (sizes2_fit S mb nb kb kn S0 Hm Hn Hk ltac:(lia) K2) as F.
  set (n0 := kn * nb / kb) in *. set (m0 := n0 * mb / nb) in *.
  assert (N0 : 0 <= n0) by (apply Z.div_pos; nia).
  assert (M0 : 0 <= m0) by (apply Z.div_pos; nia).
  destruct (and_not3_spec n0 N0) as (A1 & _). destruct (and_not3_spec m0 M0) as (A2 & _).
  rewrite Enn in A1. rewrite Emn in A2.
  unfold good_blocks2, blk, inside, apart. cbn [Acpy Bcpy MB NB ab_step KB fst snd].
  unfold CACHELINE. replace (kn <? 64 / p) with false by lia.
  assert (T : (mn + nn) * kn <= S) by nia.
  assert (T2 : (mn + nn) * kn * p <= c_len cb) by nia.
  assert (0 <= mn * kn * p) by nia. assert (0 <= nn * kn * p) by nia.
  repeat split; try lia; auto.
  - apply mul64; auto. apply stp64; auto.
  - replace (kn * p) with (1 * kn * p) by lia. apply stp64; auto.
Qed.
Print Assumptions C30_setup2_partial.

(* configuration 64,64,4 with the smallest cache memory: the second block starts inside the
   first one, because blocks are placed with stride KB and used with stride 64/p (cache.c:222, 288-291) *)
Theorem C30_setup2_refuted : exists cb mb nb kb p, c_data cb mod 64 = 0 /\ 1024 < c_len cb /\
  0 < mb /\ 0 < nb /\ 0 < kb /\ p = 8 /\ 
  let ch := armas_cache_setup2 cb mb nb kb p in
  exists j j' r r', 0 <= j < MB ch /\ 0 <= j' < NB ch /\ 0 <= r < KB ch /\ 0 <= r' < KB ch /\
    Acpy ch + (j * ab_step ch + r) * p = Bcpy ch + (j' * ab_step ch + r') * p.
Proof.
  exists (mkcbuf 8192 4032 4096 1024), 64, 64, 4, 8. repeat (split; [reflexivity || lia|]).
  vm_compute armas_cache_setup2. exists 18, 0, 0, 0.
  cbn [MB NB KB Acpy Bcpy ab_step]. repeat split; lia.
Qed.
Print Assumptions C30_setup2_refuted.

(* three-way split; same gap *)
Theorem C30_setup3_partial : forall cb mb nb kb p, 0 <= c_data cb -> c_data cb mod 64 = 0 ->
  1024 < c_len cb -> 0 < mb -> 0 < nb -> 0 < kb -> 0 < p -> (64 / p) * p = 64 ->
  let ch := armas_cache_setup3 cb mb nb kb p in
  64 / p <= KB ch ->
  good_blocks3 cb ch p (c_data cb + c_len cb) /\ MB ch <= KB ch.
Proof.
  intros cb mb nb kb p Hd0 Hd Hl Hm Hn Hk Hp H64. unfold armas_cache_setup3.
  destruct (split3_sizes (c_len cb) mb nb kb p) as [[mn nn] kn] eqn:E. cbv zeta. cbn [KB]. intros HK.
  unfold split3_sizes in E. replace (c_len cb <=? CACHEMIN) with false in E by (unfold CACHEMIN; lia).
  remember (2 * nb + mb) as dd eqn:Edd in E.
  injection E as Emn Enn Ekn. rewrite Ekn in Emn, Enn. rewrite Edd in *. clear dd Edd.
  set (kb' := Z.max kb mb) in *. assert (Hk' : 0 < kb') by lia.
  set (S := c_len cb / p) in *. set (k0 := Z.sqrt (kb' * S / (2 * nb + mb))) in *.
  assert (C0 : 0 < 64 / p) by nia.
  assert (S0 : 0 <= S) by (apply Z.div_pos; lia).
  assert (S1 : S * p <= c_len cb) by (pose proof (Z.mul_div_le (c_len cb) p); unfold S; lia).
  assert (K0 : 0 <= k0) by apply Z.sqrt_nonneg.
  assert (K1 : k0 * k0 <= kb' * S / (2 * nb + mb)).
  { apply Z.sqrt_spec. apply Z.div_pos; nia. }
  destruct (kn_round k0 (64 / p) K0 C0) as (R1 & R2 & R3). unfold CACHELINE in Ekn. rewrite Ekn in R1, R2.
  assert (K2 : kn * kn * (2 * nb + mb) <= kb' * S).
  { assert (kn * kn <= kb' * S / (2 * nb + mb)) by nia. pose proof (Z.mul_div_le (kb' * S) (2 * nb + mb)). nia. }
  pose proof (sizes3_fit S mb nb kb' kn S0 Hm Hn Hk' ltac:(lia) K2) as F.
  set (n0 := kn * nb / kb') in *. set (m0 := n0 * mb / nb) in *.
  assert (N0 : 0 <= n0) by (apply Z.div_pos; nia).
  assert (M0 : 0 <= m0) by (apply Z.div_pos; nia).
  assert (MK : m0 <= kn).
  { assert (N1 : n0 * kb' <= kn * nb) by (pose proof (Z.mul_div_le (kn * nb) kb'); unfold n0; lia).
    assert (M1 : m0 * nb <= n0 * mb) by (pose proof (Z.mul_div_le (n0 * mb) nb); unfold m0; lia).
    assert (mb <= kb') by (unfold kb'; lia). 
    assert (m0 * nb * kb' <= kn * nb * kb').
    { transitivity (n0 * mb * kb'); [nia|]. transitivity (kn * nb * mb); [nia|]. nia. }
    nia. }
  destruct (and_not3_spec n0 N0) as (A1 & _). destruct (and_not3_spec m0 M0) as (A2 & _).
  rewrite Enn in A1. rewrite Emn in A2.
  unfold good_blocks3, blk, inside, apart. cbn [Acpy Bcpy dC MB NB ab_step c_step KB fst snd].
  unfold CACHELINE. replace (kn <? 64 / p) with false by lia.
  assert (T : (mn + 2 * nn) * kn <= S) by nia.
  assert (T2 : (mn + 2 * nn) * kn * p <= c_len cb) by nia.
  assert (0 <= mn * kn * p) by nia. assert (0 <= nn * kn * p) by nia.
  repeat split; try lia; auto.
  - apply mul64; auto. apply stp64; auto.
  - apply mul64; auto. apply stp64; auto.
  - replace (kn * p) with (1 * kn * p) by lia. apply stp64; auto.
Qed.
Print Assumptions C30_setup3_partial.

(* with the default block sizes 64,64,160 every buffer of at least 4032 bytes (the smallest the
   library makes) gives good, non-empty blocks *)
Theorem C30_default_config : forall cb p, 0 <= c_data cb -> c_data cb mod 64 = 0 -> 4032 <= c_len cb ->
  (p = 4 \/ p = 8) ->
  let ch2 := armas_cache_setup2 cb 64 64 160 p in
  let ch3 := armas_cache_setup3 cb 64 64 160 p in
  good_blocks2 cb ch2 p (c_data cb + c_len cb) /\ good_blocks3 cb ch3 p (c_data cb + c_len cb) /\
  4 <= MB ch2 /\ 4 <= NB ch2 /\ 4 <= MB ch3 /\ 4 <= NB ch3.
Proof.
  intros cb p Hd0 Hd Hl Hp.
  assert (H64 : 64 / p * p = 64) by (destruct Hp; subst; reflexivity).
  assert (S1 : 4032 / p <= c_len cb / p) by (apply Z.div_le_mono; destruct Hp; lia).
  assert (S2 : 504 <= c_len cb / p /\ (p = 4 -> 1008 <= c_len cb / p)).
  { destruct Hp; subst; [change (4032 / 4) with 1008 in S1|change (4032 / 8) with 504 in S1]; lia. }
  assert (X2 : 64 / p <= KB (armas_cache_setup2 cb 64 64 160 p) /\ 4 <= MB (armas_cache_setup2 cb 64 64 160 p) /\
               4 <= NB (armas_cache_setup2 cb 64 64 160 p)).
  { unfold armas_cache_setup2, split2_sizes. replace (c_len cb <=? CACHEMIN) with false by (unfold CACHEMIN; lia).
    cbv zeta. cbn [KB MB NB]. set (S := c_len cb / p) in *.
    assert (Q : 25 <= Z.sqrt (160 * S / (64 + 64)) /\ (p = 4 -> 35 <= Z.sqrt (160 * S / (64 + 64)))).
    { split; intros; apply Z.sqrt_le_square; try lia; try (apply Z.div_pos; lia); apply Z.div_le_lower_bound; lia. }
    set (k0 := Z.sqrt (160 * S / (64 + 64))) in *. unfold CACHELINE.
    assert (R : 24 <= (if k0 >? 64 / p then k0 - k0 mod (64 / p) else k0)).
    { pose proof (Z_div_mod_eq_full k0 (64 / p)). destruct Hp; subst p.
      - change (64 / 4) with 16 in *. replace (k0 >? 16) with true by lia.
        assert (2 <= k0 / 16) by (apply Z.div_le_lower_bound; lia). lia.
      - change (64 / 8) with 8 in *. replace (k0 >? 8) with true by lia.
        assert (3 <= k0 / 8) by (apply Z.div_le_lower_bound; lia). lia. }
    set (kn := if k0 >? 64 / p then k0 - k0 mod (64 / p) else k0) in *.
    assert (N : 9 <= kn * 64 / 160) by (apply Z.div_le_lower_bound; lia).
    rewrite (Z.div_mul (kn * 64 / 160) 64) by lia.
    pose proof (and_not3_spec (kn * 64 / 160)). split; [destruct Hp; subst p; cbn; lia|lia]. }
  assert (X3 : 64 / p <= KB (armas_cache_setup3 cb 64 64 160 p) /\ 4 <= MB (armas_cache_setup3 cb 64 64 160 p) /\
               4 <= NB (armas_cache_setup3 cb 64 64 160 p)).
  { unfold armas_cache_setup3, split3_sizes. replace (c_len cb <=? CACHEMIN) with false by (unfold CACHEMIN; lia).
    cbv zeta. cbn [KB MB NB]. set (S := c_len cb / p) in *. change (Z.max 160 64) with 160.
    assert (Q : 20 <= Z.sqrt (160 * S / (2 * 64 + 64)) /\ (p = 4 -> 28 <= Z.sqrt (160 * S / (2 * 64 + 64)))).
    { split; intros; apply Z.sqrt_le_square; try lia; try (apply Z.div_pos; lia); apply Z.div_le_lower_bound; lia. }
    set (k0 := Z.sqrt (160 * S / (2 * 64 + 64))) in *. unfold CACHELINE.
    assert (R : 16 <= (if k0 >? 64 / p then k0 - k0 mod (64 / p) else k0)).
    { pose proof (Z_div_mod_eq_full k0 (64 / p)). destruct Hp; subst p.
      - change (64 / 4) with 16 in *. replace (k0 >? 16) with true by lia.
        assert (1 <= k0 / 16) by (apply Z.div_le_lower_bound; lia). lia.
      - change (64 / 8) with 8 in *. replace (k0 >? 8) with true by lia.
        assert (2 <= k0 / 8) by (apply Z.div_le_lower_bound; lia). lia. }
    set (kn := if k0 >? 64 / p then k0 - k0 mod (64 / p) else k0) in *.
    assert (N : 6 <= kn * 64 / 160) by (apply Z.div_le_lower_bound; lia).
    rewrite (Z.div_mul (kn * 64 / 160) 64) by lia.
    pose proof (and_not3_spec (kn * 64 / 160)). split; [destruct Hp; subst p; cbn; lia|].
    unfold and_not3 in *. pose proof (Z_div_mod_eq_full (kn * 64 / 160) 4).
    assert (1 <= kn * 64 / 160 / 4) by (apply Z.div_le_lower_bound; lia). lia. }
  cbv zeta. split; [|split; [|lia]].
  - apply C30_setup2_partial; auto; lia.
  - apply C30_setup3_partial; auto; lia.
Qed.
Print Assumptions C30_default_config.

(* a configured row block size far below the column block size gives empty row blocks
   (cache.c:216): mb = 1, nb = 64, any buffer up to 1 MB *)
Theorem C30_empty_block_refuted : exists cb mb nb kb p, c_data cb mod 64 = 0 /\ c_len cb = 2 ^ 18 /\
  0 < mb /\ 0 < nb /\ 0 < kb /\ p = 8 /\ MB (armas_cache_setup2 cb mb nb kb p) = 0.
Proof. exists (mkcbuf 8192 (2 ^ 18) (2 ^ 18) 1024), 1, 64, 160, 8. repeat split; try lia. Qed.
Print Assumptions C30_empty_block_refuted.

(* fixed block sizes: accepted configurations fit into cmem bytes from the start of the data *)
Theorem C30_fixed : forall cb mb nb kb p ch, 0 <= c_data cb -> c_data cb mod 64 = 0 ->
  0 <= mb < 2 ^ 20 -> 0 <= nb < 2 ^ 20 -> 0 <= kb < 2 ^ 20 -> 0 < p <= 16 -> (64 / p) * p = 64 ->
  (armas_cache_fixed2 cb mb nb kb p = Some ch -> good_blocks2 cb ch p (c_data cb + c_cmem cb)) /\
  (armas_cache_fixed3 cb mb nb kb p = Some ch -> good_blocks3 cb ch p (c_data cb + c_cmem cb)).
Proof.
  intros cb mb nb kb p ch Hd0 Hd Hm Hn Hk Hp H64.
  set (clp := 64 / p). assert (C0 : 4 <= clp <= 64) by (unfold clp; nia).
  set (k1 := if kb >? clp then kb - kb mod clp else kb).
  set (k2 := if k1 <? 4 then 4 else k1).
  set (stp := if k2 >? clp then k2 else clp).
  assert (S1 : 4 <= stp <= (if kb >? clp then kb else clp) /\ stp mod clp = 0 /\ k2 <= stp).
  { unfold stp, k2, k1. pose proof (Z.mod_pos_bound kb clp). pose proof (Z.mod_le kb clp).
    pose proof (Z_div_mod_eq_full kb clp).
    assert (M1 : (kb - kb mod clp) mod clp = 0).
    { replace (kb - kb mod clp) with (kb / clp * clp) by lia. apply Z.mod_mul. lia. }
    assert (M2 : clp mod clp = 0) by (apply Z.mod_same; lia).
    destruct (kb >? clp) eqn:E1.
    - assert (1 <= kb / clp) by (apply Z.div_le_lower_bound; lia).
      destruct (kb - kb mod clp <? 4) eqn:E2; [lia|].
      destruct (kb - kb mod clp >? clp) eqn:E3; repeat split; auto; lia.
    - destruct (kb <? 4) eqn:E2.
      + replace (4 >? clp) with false by lia. repeat split; auto; lia.
      + rewrite E1. repeat split; auto; lia. }
  destruct S1 as (S1 & S2 & S3).
  set (s0 := if kb >? clp then kb else clp) in *.
  assert (S4 : s0 < 2 ^ 20 + 64) by (unfold s0; destruct (kb >? clp); lia).
  destruct (and_not3_spec mb) as (A1 & _); [lia|]. destruct (and_not3_spec nb) as (A2 & _); [lia|].
  assert (SP : (stp * p) mod 64 = 0) by (replace (stp * p) with (1 * stp * p) by lia; apply stp64; auto; lia).
  split; intros E.
  - unfold armas_cache_fixed2 in E. unfold CACHELINE in E. fold clp in E. fold s0 in E.
    rewrite u64_id in E.
    2:{ assert (P0 : 0 <= s0 * (mb + nb) <= (2 ^ 20 + 64) * 2 ^ 21) by (split; [|apply Z.mul_le_mono_nonneg]; nia).
        split; [apply Z.mul_nonneg_nonneg; lia|].
        apply Z.le_lt_trans with ((2 ^ 20 + 64) * 2 ^ 21 * 16); [apply Z.mul_le_mono_nonneg; lia|lia]. }
    destruct (s0 * (mb + nb) * p >? c_cmem cb) eqn:E1; [discriminate|]. injection E as <-.
    fold k1. fold k2. fold stp. unfold good_blocks2, blk, inside, apart. cbn [Acpy Bcpy MB NB ab_step KB fst snd].
    assert (T : (and_not3 mb + and_not3 nb) * stp * p <= s0 * (mb + nb) * p).
    { apply Z.mul_le_mono_nonneg_r; [lia|]. rewrite (Z.mul_comm s0). apply Z.mul_le_mono_nonneg; lia. }
    assert (0 <= and_not3 mb * stp * p) by (apply Z.mul_nonneg_nonneg; nia).
    assert (0 <= and_not3 nb * stp * p) by (apply Z.mul_nonneg_nonneg; nia).
    repeat split; try lia; auto. apply mul64; auto. apply stp64; auto; lia.
  - unfold armas_cache_fixed3 in E. unfold CACHELINE in E. fold clp in E. fold s0 in E.
    rewrite u64_id in E.
    2:{ assert (P0 : 0 <= s0 * (mb + 2 * nb) <= (2 ^ 20 + 64) * 2 ^ 22) by (split; [|apply Z.mul_le_mono_nonneg]; nia).
        split; [apply Z.mul_nonneg_nonneg; lia|].
        apply Z.le_lt_trans with ((2 ^ 20 + 64) * 2 ^ 22 * 16); [apply Z.mul_le_mono_nonneg; lia|lia]. }
    destruct (s0 * (mb + 2 * nb) * p >? c_cmem cb) eqn:E1; [discriminate|]. injection E as <-.
    fold k1. fold k2. fold stp. unfold good_blocks3, blk, inside, apart. cbn [Acpy Bcpy dC MB NB ab_step c_step KB fst snd].
    assert (T : (and_not3 mb + 2 * and_not3 nb) * stp * p <= s0 * (mb + 2 * nb) * p).
    { apply Z.mul_le_mono_nonneg_r; [lia|]. rewrite (Z.mul_comm s0). apply Z.mul_le_mono_nonneg; lia. }
    assert (0 <= and_not3 mb * stp * p) by (apply Z.mul_nonneg_nonneg; nia).
    assert (0 <= and_not3 nb * stp * p) by (apply Z.mul_nonneg_nonneg; nia).
    repeat split; try lia; auto; apply mul64; auto; apply stp64; auto; lia.
Qed.
Print Assumptions C30_fixed.

(* fixed blocks carved out of a user workspace end beyond it: cmem is not reduced by the bytes
   lost to alignment (cache.c:120-127, 495) *)
Theorem C30_fixed_workspace_refuted : exists W cb W' ch, wok W /\
  armas_cbuf_select_work W 65536 1024 = Some (cb, W') /\
  armas_cache_fixed2 cb 16 16 256 8 = Some ch /\
  ~ inside (blk (Bcpy ch) (NB ch) (ab_step ch) 8) (w_buf W) (w_buf W + w_bytes W).
Proof.
  exists (mkwbuf 8208 65536 0). eexists. eexists. eexists.
  split; [unfold wok; cbn; lia|]. split; [reflexivity|]. split; [reflexivity|].
  vm_compute. intros (_ & H). apply H. reflexivity.
Qed.
Print Assumptions C30_fixed_workspace_refuted.

Example C30_nonvacuous :
  let cb := fst (armas_cbuf_init 5000 (2 ^ 18) (2 ^ 15)) in
  c_data cb mod 64 = 0 /\ 4032 <= c_len cb /\
  KB (armas_cache_setup2 cb 64 64 160 8) = 200 /\ MB (armas_cache_setup2 cb 64 64 160 8) = 80 /\
  64 / 8 <= KB (armas_cache_setup2 cb 64 64 160 8) /\
  64 / 8 <= KB (armas_cache_setup3 cb 64 64 160 8) /\
  (exists ch, armas_cache_fixed2 cb 64 64 160 8 = Some ch) /\ (exists ch, armas_cache_fixed3 cb 64 64 160 8 = Some ch).
Proof. vm_compute. repeat split; try congruence; eexists; reflexivity. Qed.
