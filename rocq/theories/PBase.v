(* PBase.v: lemmas on sizes, workspace, cache buffers and work splitting. *)
From Coq Require Import ZArith Lia Bool ZifyBool List.
From Verif Require Import MBase.
Import ListNotations.
Local Open Scope Z_scope.

Lemma i32_some : forall x, - 2 ^ 31 <= x < 2 ^ 31 -> i32 x = Some x.
Proof. intros x H. unfold i32. replace ((- 2 ^ 31 <=? x) && (x <? 2 ^ 31)) with true by lia. reflexivity. Qed.
Lemma i32_none : forall x, 2 ^ 31 <= x -> i32 x = None.
Proof. intros x H. unfold i32. replace ((- 2 ^ 31 <=? x) && (x <? 2 ^ 31)) with false by lia. reflexivity. Qed.
Lemma u64_id : forall x, 0 <= x < 2 ^ 64 -> u64 x = x.
Proof. intros. unfold u64. apply Z.mod_small; auto. Qed.

Lemma land3 : forall x, Z.land x 3 = x mod 4.
Proof. intros. change 3 with (Z.ones 2). rewrite Z.land_ones by lia. reflexivity. Qed.

(* ---- block index ---- *)

Definition bix (n nblocks ntotal : Z) : Z :=
  if n =? nblocks then ntotal else 4 * (n * ntotal / nblocks / 4).

Lemma block_index_eq : forall n nb nt, 0 < nb -> 0 <= nt -> nb * nt < 2 ^ 31 -> 0 <= n <= nb ->
  armas_ac_block_index n nb nt = Some (bix n nb nt).
Proof.
  intros n nb nt Hb Ht Ho Hn. unfold armas_ac_block_index, bix. destruct (n =? nb) eqn:E; auto.
  assert (0 <= n * nt <= nb * nt) by nia.
  rewrite i32_some by lia. cbn [obind]. replace (nb =? 0) with false by lia.
  rewrite Z.quot_div_nonneg by lia. rewrite land3. f_equal.
  pose proof (Z_div_mod_eq_full (n * nt / nb) 4). lia.
Qed.

Lemma bix_0 : forall nb nt, 0 < nb -> bix 0 nb nt = 0.
Proof. intros. unfold bix. replace (0 =? nb) with false by lia. rewrite Z.mul_0_l, Z.div_0_l by lia. reflexivity. Qed.

Lemma bix_n : forall nb nt, bix nb nb nt = nt.
Proof. intros. unfold bix. rewrite Z.eqb_refl. reflexivity. Qed.

Lemma bix_mono : forall n nb nt, 0 < nb -> 0 <= nt -> 0 <= n < nb -> bix n nb nt <= bix (n + 1) nb nt.
Proof.
  intros n nb nt Hb Ht Hn. unfold bix. replace (n =? nb) with false by lia.
  destruct (n + 1 =? nb) eqn:E.
  - assert (n * nt / nb <= nt).
    { apply Z.div_le_upper_bound; nia. }
    pose proof (Z_div_mod_eq_full (n * nt / nb) 4). pose proof (Z.mod_pos_bound (n * nt / nb) 4). lia.
  - assert (n * nt / nb <= (n + 1) * nt / nb) by (apply Z.div_le_mono; nia).
    assert (n * nt / nb / 4 <= (n + 1) * nt / nb / 4) by (apply Z.div_le_mono; lia). lia.
Qed.

Lemma bix_range : forall n nb nt, 0 < nb -> 0 <= nt -> 0 <= n <= nb -> 0 <= bix n nb nt <= nt.
Proof.
  intros n nb nt Hb Ht Hn. unfold bix. destruct (n =? nb) eqn:E; [lia|].
  assert (0 <= n * nt / nb) by (apply Z.div_pos; nia).
  assert (n * nt / nb <= nt) by (apply Z.div_le_upper_bound; nia).
  pose proof (Z_div_mod_eq_full (n * nt / nb) 4). pose proof (Z.mod_pos_bound (n * nt / nb) 4).
  assert (0 <= n * nt / nb / 4) by (apply Z.div_pos; lia). lia.
Qed.

Lemma mono_le : forall (f : Z -> Z) n, (forall k, 0 <= k < n -> f k <= f (k + 1)) ->
  forall a b, 0 <= a -> a <= b -> b <= n -> f a <= f b.
Proof.
  intros f n H a b Ha Hab Hb. replace b with (a + Z.of_nat (Z.to_nat (b - a))) by lia.
  assert (Z.of_nat (Z.to_nat (b - a)) <= b - a) by lia. revert H0.
  generalize (Z.to_nat (b - a)) as d. induction d; intros Hd; [rewrite Z.add_0_r; lia|].
  etransitivity; [apply IHd; lia|]. replace (a + Z.of_nat (S d)) with (a + Z.of_nat d + 1) by lia. apply H. lia.
Qed.

Lemma split_exists : forall (f : Z -> Z) n N, 0 < n -> f 0 = 0 -> f n = N ->
  forall x, 0 <= x < N -> exists k, 0 <= k < n /\ f k <= x < f (k + 1).
Proof.
  intros f n N Hn H0 HN x Hx.
  assert (X : forall d : nat, Z.of_nat d <= n -> (exists k, 0 <= k < n /\ f k <= x < f (k + 1)) \/ f (Z.of_nat d) <= x).
  { induction d; intros Hd; [right; cbn; lia|].
    destruct IHd as [E|E]; [lia|auto|].
    destruct (Z_lt_dec x (f (Z.of_nat (S d)))).
    - left. exists (Z.of_nat d). split; [lia|]. replace (Z.of_nat d + 1) with (Z.of_nat (S d)) by lia. lia.
    - right; lia. }
  destruct (X (Z.to_nat n)) as [E|E]; [lia|auto|]. rewrite Z2Nat.id in E by lia. lia.
Qed.

(* ---- lists ---- *)

Lemma otraverse_map : forall A B (f : A -> option B) (g : A -> B) l,
  (forall a, In a l -> f a = Some (g a)) -> otraverse f l = Some (map g l).
Proof.
  induction l; intros H; cbn [otraverse map]; auto.
  rewrite H by (left; auto). cbn [obind]. rewrite IHl by (intros; apply H; right; auto). reflexivity.
Qed.

Lemma zrange_in : forall n x, In x (zrange n) <-> 0 <= x < n.
Proof.
  intros n x. unfold zrange. rewrite in_map_iff. split.
  - intros (k & <- & Hk). apply in_seq in Hk. lia.
  - intros H. exists (Z.to_nat x). split; [lia|]. apply in_seq. lia.
Qed.

Lemma FOP_map_seq : forall A (R : A -> A -> Prop) (g : Z -> A) s len,
  (forall a b, Z.of_nat s <= a -> a < b -> b < Z.of_nat (s + len) -> R (g a) (g b)) ->
  ForallOrdPairs R (map g (map Z.of_nat (seq s len))).
Proof.
  intros A R g s len. revert s. induction len; intros s H; cbn [seq map]; [constructor|].
  constructor.
  - apply Forall_forall. intros x Hx. apply in_map_iff in Hx as (z & <- & Hz). apply in_map_iff in Hz as (k & <- & Hk).
    apply in_seq in Hk. apply H; lia.
  - apply IHlen. intros a b Ha Hab Hb. apply H; lia.
Qed.

Lemma FOP_app : forall A (R : A -> A -> Prop) l1 l2, ForallOrdPairs R l1 -> ForallOrdPairs R l2 ->
  (forall a b, In a l1 -> In b l2 -> R a b) -> ForallOrdPairs R (l1 ++ l2).
Proof.
  induction l1; intros l2 H1 H2 H; cbn; auto. inversion H1; subst. constructor.
  - apply Forall_app; split; auto. apply Forall_forall. intros; apply H; [left|]; auto.
  - apply IHl1; auto. intros; apply H; [right|]; auto.
Qed.

Lemma FOP_concat : forall A (R : A -> A -> Prop) ll, (forall l, In l ll -> ForallOrdPairs R l) ->
  ForallOrdPairs (fun l l' => forall a b, In a l -> In b l' -> R a b) ll -> ForallOrdPairs R (concat ll).
Proof.
  induction ll; intros H1 H2; cbn; [constructor|]. inversion H2; subst. apply FOP_app.
  - apply H1; left; auto.
  - apply IHll; auto. intros; apply H1; right; auto.
  - intros x y Hx Hy. apply in_concat in Hy as (l & Hl & Hy). rewrite Forall_forall in H3. eapply H3; eauto.
Qed.

(* ---- workspace ---- *)

Definition wok (W : wbuf) : Prop := 0 <= w_offset W <= w_bytes W /\ w_bytes W < 2 ^ 64.

Lemma reserve_bytes_eq : forall W n, wok W -> 0 <= n ->
  armas_wreserve_bytes W n =
  if w_offset W + n <=? w_bytes W
  then (Some (w_buf W + w_offset W), mkwbuf (w_buf W) (w_bytes W) (w_offset W + n)) else (None, W).
Proof.
  intros W n (H1 & H2) Hn. unfold armas_wreserve_bytes. rewrite (u64_id (w_bytes W - w_offset W)) by lia.
  destruct (w_offset W + n <=? w_bytes W) eqn:E.
  - replace (n >? w_bytes W - w_offset W) with false by lia. rewrite u64_id by lia. reflexivity.
  - replace (n >? w_bytes W - w_offset W) with true by lia. reflexivity.
Qed.

(* ---- cache ---- *)

Lemma and_not3_spec : forall x, 0 <= x -> 0 <= and_not3 x <= x /\ and_not3 x mod 4 = 0 /\ x - 3 <= and_not3 x.
Proof.
  intros x H. unfold and_not3. pose proof (Z.mod_pos_bound x 4). pose proof (Z.mod_le x 4).
  split; [lia|split; [|lia]]. 
  pose proof (Z_div_mod_eq_full x 4). replace (x - x mod 4) with (x / 4 * 4) by lia. apply Z.mod_mul. lia.
Qed.

Lemma cache_aligned_spec : forall ptr len, 0 <= ptr -> CACHELINE <= len < 2 ^ 64 ->
  let '(data, l) := cache_aligned ptr len in
  data mod CACHELINE = 0 /\ ptr < data <= ptr + CACHELINE /\ data + l = ptr + len.
Proof.
  intros ptr len Hp Hl. unfold cache_aligned, CACHELINE in *. cbv zeta.
  pose proof (Z.mod_pos_bound ptr 64). rewrite u64_id by lia.
  split; [|lia]. pose proof (Z_div_mod_eq_full ptr 64).
  replace (ptr + (64 - ptr mod 64)) with ((ptr / 64 + 1) * 64) by lia. apply Z.mod_mul. lia.
Qed.

Lemma alloc_size_spec : forall r, 0 <= r -> r + 95 <= alloc_size r <= r + 126.
Proof.
  intros r H. unfold alloc_size, CACHELINE, CLSHIFT. rewrite Z.shiftr_div_pow2, Z.shiftl_mul_pow2 by lia.
  change (2 ^ 5) with 32. pose proof (Z_div_mod_eq_full (r + 64 - 1) 32). pose proof (Z.mod_pos_bound (r + 64 - 1) 32). lia.
Qed.

(* the exact size computation: kn columns of nn and mn fit *)
Lemma sizes2_fit : forall S mb nb kb kn, 0 <= S -> 0 < mb -> 0 < nb -> 0 < kb -> 0 <= kn ->
  kn * kn * (mb + nb) <= kb * S ->
  (kn * nb / kb * mb / nb + kn * nb / kb) * kn <= S.
Proof.
  intros S mb nb kb kn HS Hm Hn Hk Hkn H.
  set (nn := kn * nb / kb). set (mn := nn * mb / nb).
  assert (N0 : 0 <= nn) by (apply Z.div_pos; nia).
  assert (N1 : nn * kb <= kn * nb) by (pose proof (Z.mul_div_le (kn * nb) kb); unfold nn; lia).
  assert (M0 : 0 <= mn) by (apply Z.div_pos; nia).
  assert (M1 : mn * nb <= nn * mb) by (pose proof (Z.mul_div_le (nn * mb) nb); unfold mn; lia).
  (* (mn + nn) * nb <= nn * (mb + nb); times kb: <= kn * nb * (mb + nb) *)
  assert (E1 : (mn + nn) * kb <= kn * (mb + nb)).
  { assert ((mn + nn) * nb * kb <= kn * nb * (mb + nb)).
    { transitivity (nn * (mb + nb) * kb); [nia|]. nia. }
    nia. }
  assert (E2 : (mn + nn) * kn * kb <= S * kb).
  { transitivity (kn * (mb + nb) * kn); nia. }
  nia.
Qed.

Lemma sizes3_fit : forall S mb nb kb kn, 0 <= S -> 0 < mb -> 0 < nb -> 0 < kb -> 0 <= kn ->
  kn * kn * (2 * nb + mb) <= kb * S ->
  (kn * nb / kb * mb / nb + 2 * (kn * nb / kb)) * kn <= S.
Proof.
  intros S mb nb kb kn HS Hm Hn Hk Hkn H.
  set (nn := kn * nb / kb). set (mn := nn * mb / nb).
  assert (N0 : 0 <= nn) by (apply Z.div_pos; nia).
  assert (N1 : nn * kb <= kn * nb) by (pose proof (Z.mul_div_le (kn * nb) kb); unfold nn; lia).
  assert (M0 : 0 <= mn) by (apply Z.div_pos; nia).
  assert (M1 : mn * nb <= nn * mb) by (pose proof (Z.mul_div_le (nn * mb) nb); unfold mn; lia).
  assert (E1 : (mn + 2 * nn) * kb <= kn * (mb + 2 * nb)).
  { assert ((mn + 2 * nn) * nb * kb <= kn * nb * (mb + 2 * nb)).
    { transitivity (nn * (mb + 2 * nb) * kb); [nia|]. nia. }
    nia. }
  assert (E2 : (mn + 2 * nn) * kn * kb <= S * kb).
  { transitivity (kn * (mb + 2 * nb) * kn); nia. }
  nia.
Qed.

Lemma kn_round : forall kn clp, 0 <= kn -> 0 < clp ->
  let k := if kn >? clp then kn - kn mod clp else kn in
  0 <= k <= kn /\ (clp <= k -> k mod clp = 0) /\ (clp <= kn -> clp <= k).
Proof.
  intros kn clp H1 H2 k. unfold k. destruct (kn >? clp) eqn:E.
  - pose proof (Z.mod_pos_bound kn clp). pose proof (Z.mod_le kn clp). 
    pose proof (Z_div_mod_eq_full kn clp).
    assert (1 <= kn / clp) by (apply Z.div_le_lower_bound; lia).
    split; [lia|]. split; [|nia]. intros _. replace (kn - kn mod clp) with (kn / clp * clp) by lia. apply Z.mod_mul; lia.
  - split; [lia|split; [|lia]]. intros H. assert (kn = clp) as -> by lia. apply Z.mod_same. lia.
Qed.
