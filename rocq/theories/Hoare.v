(* Hoare.v: proof rules for the programs of Mem.v. *)
From Coq Require Import ZArith Lia Bool ZifyBool.
From Verif Require Import Mem.
Local Open Scope Z_scope.
Local Open Scope prog_scope.

(* c runs without undefined behaviour from memory m and establishes Q *)
Definition wp {T A} (c : M T A) (L : Z -> bool) (m : Z -> T) (Q : A -> (Z -> T) -> Prop) : Prop :=
  exists a m', c L m = Some (a, m') /\ Q a m'.

Section Rules.
  Context {T : Type}.
  Implicit Type L : Z -> bool.
  Implicit Type m : Z -> T.

  Lemma wp_ret : forall A (a : A) L m (Q : A -> (Z -> T) -> Prop), Q a m -> wp (ret a) L m Q.
  Proof. intros. exists a, m. split; auto. Qed.

  Lemma wp_bind : forall A B (c : M T A) (f : A -> M T B) L m Q,
    wp c L m (fun a m' => wp (f a) L m' Q) -> wp (bind c f) L m Q.
  Proof.
    intros A B c f L m Q (a & m' & E & b & m'' & E' & H).
    exists b, m''. split; auto. rewrite run_bind, E. exact E'.
  Qed.

  Lemma wp_conseq : forall A (c : M T A) L m (P Q : A -> (Z -> T) -> Prop),
    wp c L m P -> (forall a m', P a m' -> Q a m') -> wp c L m Q.
  Proof. intros A c L m P Q (a & m' & E & H) HPQ. exists a, m'. auto. Qed.

  Lemma wp_rd : forall p L m (Q : T -> (Z -> T) -> Prop),
    L p = true -> Q (m p) m -> wp (rd p) L m Q.
  Proof. intros p L m Q H HQ. exists (m p), m. rewrite run_rd. rewrite H. auto. Qed.

  Lemma wp_wr : forall p v L m (Q : unit -> (Z -> T) -> Prop),
    L p = true -> Q tt (fun a => if a =? p then v else m a) -> wp (wr p v) L m Q.
  Proof. intros p v L m Q H HQ. eexists tt, _. rewrite run_wr, H. eauto. Qed.

  Lemma wp_if : forall A (b : bool) (c d : M T A) L m Q,
    (b = true -> wp c L m Q) -> (b = false -> wp d L m Q) -> wp (if b then c else d) L m Q.
  Proof. intros A [] c d L m Q H1 H2; auto. Qed.

  Lemma wp_when : forall (b : bool) (c : M T unit) L m Q,
    (b = true -> wp c L m Q) -> (b = false -> Q tt m) -> wp (when b c) L m Q.
  Proof. intros [] c L m Q H1 H2; cbn; auto. apply wp_ret; auto. Qed.

  (* loops *)

  Lemma wp_iter : forall A (f : Z -> A -> M T A) L (I : Z -> A -> (Z -> T) -> Prop) s n i a m (Q : A -> (Z -> T) -> Prop),
    I i a m ->
    (forall k a m, 0 <= k < Z.of_nat n -> I (i + s * k) a m ->
       wp (f (i + s * k) a) L m (I (i + s * (k + 1)))) ->
    (forall a m, I (i + s * Z.of_nat n) a m -> Q a m) ->
    wp (iter n i s f a) L m Q.
  Proof.
    intros A f L I s. induction n as [|n IH]; intros i a m Q H0 Hs HQ; cbn [iter].
    - apply wp_ret, HQ. replace (i + s * Z.of_nat 0) with i by lia. exact H0.
    - apply wp_bind. eapply wp_conseq.
      { specialize (Hs 0 a m). rewrite Z.mul_0_r, Z.add_0_r in Hs. apply Hs; auto; lia. }
      cbv beta. intros a' m' H'. apply (IH (i + s)).
      + replace (i + s) with (i + s * (0 + 1)) by lia. exact H'.
      + intros k a'' m'' Hk HI.
        replace (i + s + s * k) with (i + s * (k + 1)) in * by lia.
        replace (i + s + s * (k + 1)) with (i + s * (k + 1 + 1)) by lia.
        apply Hs; auto; lia.
      + intros a'' m'' HI. apply HQ.
        replace (i + s * Z.of_nat (S n)) with (i + s + s * Z.of_nat n) by lia. exact HI.
  Qed.

  Lemma trips_bounds : forall lo hi s, 0 < s -> lo <= hi ->
    hi <= loop_end lo hi s < hi + s /\ (forall k, 0 <= k < Z.of_nat (trips lo hi s) -> lo + s * k < hi).
  Proof.
    intros lo hi s Hs H. unfold loop_end, trips.
    assert (0 <= (hi - lo + (s - 1)) / s) by (apply Z.div_pos; lia).
    rewrite Z2Nat.id by lia.
    pose proof (Z.div_mod (hi - lo + (s - 1)) s ltac:(lia)).
    pose proof (Z.mod_pos_bound (hi - lo + (s - 1)) s ltac:(lia)).
    split; [nia|]. intros k Hk. nia.
  Qed.

  Lemma trips_0 : forall lo hi s, 0 < s -> hi <= lo -> trips lo hi s = O.
  Proof.
    intros lo hi s Hs H. unfold trips.
    assert ((hi - lo + (s - 1)) / s < 1) by (apply Z.div_lt_upper_bound; lia). lia.
  Qed.

  Lemma loop_end_0 : forall lo hi s, 0 < s -> hi <= lo -> loop_end lo hi s = lo.
  Proof. intros. unfold loop_end. rewrite trips_0; auto; lia. Qed.

  Lemma loop_end_1 : forall lo hi, loop_end lo hi 1 = Z.max lo hi.
  Proof.
    intros lo hi. destruct (Z_le_dec lo hi).
    - pose proof (trips_bounds lo hi 1). lia.
    - rewrite loop_end_0; lia.
  Qed.

  (* for (i = lo; i < hi; i += s) with accumulator *)
  Lemma wp_for_acc : forall A (f : Z -> A -> M T A) L (I : Z -> A -> (Z -> T) -> Prop) lo hi s a m (Q : A -> (Z -> T) -> Prop),
    0 < s ->
    I lo a m ->
    (forall i a m k, 0 <= k -> i = lo + s * k -> lo <= i < hi -> I i a m ->
       wp (f i a) L m (I (i + s))) ->
    (forall a m, I (loop_end lo hi s) a m -> Q a m) ->
    wp (for_acc lo hi s f a) L m Q.
  Proof.
    intros A f L I lo hi s a m Q Hs H0 Hb HQ. unfold for_acc.
    apply wp_iter with (I := I); auto.
    intros k a' m' Hk HI. replace (lo + s * (k + 1)) with (lo + s * k + s) by lia.
    destruct (Z_le_dec lo hi) as [Hle|Hgt].
    - apply (Hb (lo + s * k) a' m' k); auto; try lia.
      destruct (trips_bounds lo hi s Hs Hle) as [_ Ht]. specialize (Ht k Hk). nia.
    - rewrite trips_0 in Hk; lia.
  Qed.

  Lemma wp_for_up : forall (f : Z -> M T unit) L (I : Z -> (Z -> T) -> Prop) lo hi s m (Q : unit -> (Z -> T) -> Prop),
    0 < s ->
    I lo m ->
    (forall i m k, 0 <= k -> i = lo + s * k -> lo <= i < hi -> I i m ->
       wp (f i) L m (fun _ => I (i + s))) ->
    (forall m, I (loop_end lo hi s) m -> Q tt m) ->
    wp (for_up lo hi s f) L m Q.
  Proof.
    intros f L I lo hi s m Q Hs H0 Hb HQ. unfold for_up.
    apply wp_for_acc with (I := fun i _ => I i); auto.
    - intros. eapply Hb; eauto.
    - intros [] m'; auto.
  Qed.

  (* step 1: the invariant holds at the end for max lo hi *)
  Lemma wp_for1 : forall (f : Z -> M T unit) L (I : Z -> (Z -> T) -> Prop) lo hi m (Q : unit -> (Z -> T) -> Prop),
    I lo m ->
    (forall i m, lo <= i < hi -> I i m -> wp (f i) L m (fun _ => I (i + 1))) ->
    (forall m, I (Z.max lo hi) m -> Q tt m) ->
    wp (for_up lo hi 1 f) L m Q.
  Proof.
    intros f L I lo hi m Q H0 Hb HQ. apply wp_for_up with (I := I); auto; try lia.
    intros m' H. rewrite loop_end_1 in H. auto.
  Qed.

  Lemma wp_for1_acc : forall A (f : Z -> A -> M T A) L (I : Z -> A -> (Z -> T) -> Prop) lo hi a m (Q : A -> (Z -> T) -> Prop),
    I lo a m ->
    (forall i a m, lo <= i < hi -> I i a m -> wp (f i a) L m (I (i + 1))) ->
    (forall a m, I (Z.max lo hi) a m -> Q a m) ->
    wp (for_acc lo hi 1 f a) L m Q.
  Proof.
    intros A f L I lo hi a m Q H0 Hb HQ. apply wp_for_acc with (I := I); auto; try lia.
    intros a' m' H. rewrite loop_end_1 in H. auto.
  Qed.

  (* for (i = hi; i >= lo; i--) *)
  Lemma wp_for_down : forall (f : Z -> M T unit) L (I : Z -> (Z -> T) -> Prop) lo hi m (Q : unit -> (Z -> T) -> Prop),
    I hi m ->
    (forall i m, lo <= i <= hi -> I i m -> wp (f i) L m (fun _ => I (i - 1))) ->
    (forall m, I (Z.min hi (lo - 1)) m -> Q tt m) ->
    wp (for_down hi lo f) L m Q.
  Proof.
    intros f L I lo hi m Q H0 Hb HQ. unfold for_down.
    apply wp_iter with (I := fun i _ => I i); auto.
    - intros k [] m' Hk HI. replace (hi + -1 * (k + 1)) with (hi + -1 * k - 1) by lia.
      apply Hb; auto. lia.
    - intros [] m' H. apply HQ.
      replace (Z.min hi (lo - 1)) with (hi + -1 * Z.of_nat (Z.to_nat (hi - lo + 1))) by lia.
      exact H.
  Qed.
End Rules.

(* ------------------------------------------------------------------ *)
(* memory m is memory m0 with F p stored at D p for all p in S *)

Definition upd {I T} (m0 : Z -> T) (D : I -> Z) (F : I -> T) (S : I -> Prop) (m : Z -> T) : Prop :=
  (forall p, S p -> m (D p) = F p) /\
  (forall a, (forall p, S p -> a <> D p) -> m a = m0 a).

Definition inj_on {I} (U : I -> Prop) (D : I -> Z) : Prop :=
  forall p q, U p -> U q -> D p = D q -> p = q.

Section Upd.
  Context {I T : Type}.
  Variables (D : I -> Z) (F : I -> T).

  Lemma upd_nil : forall m0 (S : I -> Prop), (forall p, ~ S p) -> upd m0 D F S m0.
  Proof. intros m0 S H; split; auto. intros p Hp; destruct (H p Hp). Qed.

  Lemma upd_ext : forall m0 (S S' : I -> Prop) m, (forall p, S p <-> S' p) ->
    upd m0 D F S m -> upd m0 D F S' m.
  Proof.
    intros m0 S S' m H (H1 & H2). split.
    - intros p Hp. apply H1, H, Hp.
    - intros a Ha. apply H2. intros p Hp. apply Ha, H, Hp.
  Qed.

  Lemma upd_add : forall m0 (U S : I -> Prop) m p v, inj_on U D ->
    (forall q, S q -> U q) -> U p -> v = F p -> upd m0 D F S m ->
    upd m0 D F (fun q => S q \/ q = p) (fun a => if a =? D p then v else m a).
  Proof.
    intros m0 U S m p v Hinj HS Hp -> (H1 & H2). split.
    - intros q Hq. destruct (D q =? D p) eqn:E.
      + apply Z.eqb_eq in E. destruct Hq as [Hq| ->]; auto.
        rewrite (Hinj q p); auto.
      + destruct Hq as [Hq| ->]; auto. rewrite Z.eqb_refl in E. discriminate.
    - intros a Ha. destruct (a =? D p) eqn:E.
      + exfalso. apply (Ha p); auto. lia.
      + apply H2. intros q Hq. apply Ha. auto.
  Qed.

  Lemma upd_old : forall m0 (S : I -> Prop) m a, upd m0 D F S m ->
    (forall p, S p -> a <> D p) -> m a = m0 a.
  Proof. intros m0 S m a (_ & H) Ha. auto. Qed.

  Lemma upd_new : forall m0 (S : I -> Prop) m p, upd m0 D F S m -> S p -> m (D p) = F p.
  Proof. intros m0 S m p (H & _) Hp. auto. Qed.

  (* write the next element *)
  Lemma wp_wr_upd : forall L m0 (U S S' : I -> Prop) m p a v (Q : unit -> (Z -> T) -> Prop),
    upd m0 D F S m -> inj_on U D -> (forall q, S q -> U q) -> U p ->
    a = D p -> v = F p -> L (D p) = true ->
    (forall q, S' q <-> S q \/ q = p) ->
    (forall m', upd m0 D F S' m' -> Q tt m') ->
    wp (wr a v) L m Q.
  Proof.
    intros L m0 U S S' m p a v Q Hu Hinj HS Hp Ea Hv HL HS' HQ. subst a. apply wp_wr; auto.
    apply HQ. eapply upd_ext; [|eapply upd_add; eauto].
    intros q. cbv beta. rewrite HS'. tauto.
  Qed.
End Upd.

(* ------------------------------------------------------------------ *)
(* a loop unrolled four times with its remainder *)

Definition eqM {T A} (c d : M T A) : Prop := forall L m, c L m = d L m.

Lemma eqM_bind : forall T A B (c c' : M T A) (f f' : A -> M T B),
  eqM c c' -> (forall a, eqM (f a) (f' a)) -> eqM (bind c f) (bind c' f').
Proof.
  intros T A B c c' f f' H1 H2 L m. rewrite !run_bind. rewrite H1.
  destruct (c' L m) as [[a m']|]; auto. apply H2.
Qed.

Lemma eqM_refl : forall T A (c : M T A), eqM c c.
Proof. intros T A c L m; reflexivity. Qed.

Lemma eqM_trans : forall T A (c d e : M T A), eqM c d -> eqM d e -> eqM c e.
Proof. intros T A c d e H1 H2 L m. rewrite H1. apply H2. Qed.

Lemma eqM_sym : forall T A (c d : M T A), eqM c d -> eqM d c.
Proof. intros T A c d H L m. symmetry; apply H. Qed.

Lemma bind_assoc : forall T A B C (c : M T A) (f : A -> M T B) (g : B -> M T C),
  eqM (bind (bind c f) g) (bind c (fun a => bind (f a) g)).
Proof. intros T A B C c f g L m. rewrite !run_bind. destruct (c L m) as [[a m']|]; auto. rewrite !run_bind. reflexivity. Qed.

Lemma bind_ret_l : forall T A B (a : A) (f : A -> M T B), eqM (bind (ret a) f) (f a).
Proof. intros; intros L m; reflexivity. Qed.

Lemma bind_ret_r : forall T (c : M T unit), eqM (bind c (fun _ => ret tt)) c.
Proof. intros T c L m. rewrite run_bind. destruct (c L m) as [[[] m']|]; auto. Qed.

Lemma wp_eqM : forall T A (c d : M T A) L m Q, eqM c d -> wp d L m Q -> wp c L m Q.
Proof. intros T A c d L m Q H (a & m' & E & HQ). exists a, m'. rewrite H. auto. Qed.

Lemma iter_app : forall T A (f : Z -> A -> M T A) s n1 n2 i a,
  eqM (iter (n1 + n2) i s f a) (bind (iter n1 i s f a) (iter n2 (i + s * Z.of_nat n1) s f)).
Proof.
  intros T A f s. induction n1 as [|n1 IH]; intros n2 i a L m.
  - cbn [iter plus]. cbn [bind]. replace (i + s * Z.of_nat 0) with i by lia. reflexivity.
  - cbn [iter plus]. rewrite !run_bind. destruct (f i a L m) as [[a' m']|]; auto.
    rewrite (IH n2 (i + s) a' L m'). rewrite !run_bind.
    replace (i + s + s * Z.of_nat n1) with (i + s * Z.of_nat (S n1)) by lia. reflexivity.
Qed.

Definition body4 {T A} (f : Z -> A -> M T A) (i : Z) (a : A) : M T A :=
  a <- f i a ;; a <- f (i + 1) a ;; a <- f (i + 2) a ;; f (i + 3) a.

Lemma iter4 : forall T A (f : Z -> A -> M T A) n i a,
  eqM (iter n i 4 (body4 f) a) (iter (4 * n) i 1 f a).
Proof.
  intros T A f. induction n as [|n IH]; intros i a L m; [reflexivity|].
  replace (4 * S n)%nat with (S (S (S (S (4 * n))))) by lia.
  cbn [iter]. unfold body4 at 1. rewrite !run_bind.
  destruct (f i a L m) as [[a1 m1]|]; auto. rewrite !run_bind.
  destruct (f (i + 1) a1 L m1) as [[a2 m2]|]; auto. rewrite !run_bind.
  replace (i + 1 + 1) with (i + 2) by lia.
  destruct (f (i + 2) a2 L m2) as [[a3 m3]|]; auto. rewrite !run_bind.
  replace (i + 2 + 1) with (i + 3) by lia.
  destruct (f (i + 3) a3 L m3) as [[a4 m4]|]; auto.
  replace (i + 3 + 1) with (i + 4) by lia. apply IH.
Qed.

(* remainder: r < 4 more rounds from index i *)
Lemma iter_tail : forall T A (f : Z -> A -> M T A) N a,
  eqM (a <- for_acc 0 (N - 3) 4 (body4 f) a ;;
       iter (Z.to_nat (N - loop_end 0 (N - 3) 4)) (loop_end 0 (N - 3) 4) 1 f a)
      (for_acc 0 N 1 f a).
Proof.
  intros T A f N a. unfold for_acc.
  eapply eqM_trans.
  { apply eqM_bind. apply iter4. intros a'. apply eqM_refl. }
  set (n := trips 0 (N - 3) 4).
  assert (HL : loop_end 0 (N - 3) 4 = 4 * Z.of_nat n) by (unfold loop_end; lia).
  assert (E : trips 0 N 1 = (4 * n + Z.to_nat (N - loop_end 0 (N - 3) 4))%nat).
  { rewrite HL. unfold trips. replace (N - 0 + (1 - 1)) with N by lia. rewrite Z.div_1_r.
    destruct (Z_le_dec 0 (N - 3)).
    - pose proof (trips_bounds 0 (N - 3) 4 ltac:(lia) ltac:(lia)) as [H _]. rewrite HL in H. lia.
    - assert (n = O) by (unfold n; apply trips_0; lia). lia. }
  rewrite E. eapply eqM_trans; [|apply eqM_sym; apply iter_app].
  apply eqM_bind; [apply eqM_refl|]. intros a'.
  replace (0 + 1 * Z.of_nat (4 * n)) with (loop_end 0 (N - 3) 4) by (rewrite HL; lia).
  apply eqM_refl.
Qed.

Lemma tail_cases : forall N, 0 <= N ->
  0 <= N - loop_end 0 (N - 3) 4 <= 3 /\ 0 <= loop_end 0 (N - 3) 4 <= N.
Proof.
  intros N H. destruct (Z_le_dec 0 (N - 3)).
  - pose proof (trips_bounds 0 (N - 3) 4 ltac:(lia) ltac:(lia)) as [H' _].
    assert (0 <= loop_end 0 (N - 3) 4) by (unfold loop_end; lia). lia.
  - rewrite loop_end_0 by lia. lia.
Qed.

Lemma tail3_iter : forall T A (f : Z -> A -> M T A) r i a, 0 <= r <= 3 ->
  eqM (tail3 r i f a) (iter (Z.to_nat r) i 1 f a).
Proof.
  intros T A f r i a H L m. unfold tail3.
  assert (r = 0 \/ r = 1 \/ r = 2 \/ r = 3) as [->|[->|[->| ->]]] by lia.
  - reflexivity.
  - change (Z.to_nat 1) with 1%nat. cbn -[Z.add bind run]. rewrite ?run_bind.
    destruct (f i a L m) as [[? ?]|]; reflexivity.
  - change (Z.to_nat 2) with 2%nat. cbn -[Z.add bind run]. rewrite ?run_bind.
    destruct (f i a L m) as [[a1 m1]|]; auto. rewrite ?run_bind.
    destruct (f (i + 1) a1 L m1) as [[? ?]|]; reflexivity.
  - change (Z.to_nat 3) with 3%nat. cbn -[Z.add bind run]. rewrite ?run_bind.
    destruct (f i a L m) as [[a1 m1]|]; auto. rewrite ?run_bind.
    destruct (f (i + 1) a1 L m1) as [[a2 m2]|]; auto. rewrite !run_bind.
    replace (i + 1 + 1) with (i + 2) by lia.
    destruct (f (i + 2) a2 L m2) as [[? ?]|]; reflexivity.
Qed.

(* unrolled loop, remainder by the fall-through switch *)
Lemma wp_unroll4_acc : forall T A (b4 f : Z -> A -> M T A) L (I : Z -> A -> (Z -> T) -> Prop)
    N a m (Q : A -> (Z -> T) -> Prop),
  0 <= N -> I 0 a m ->
  (forall i a m, 0 <= i -> i + 3 < N -> I i a m -> wp (b4 i a) L m (I (i + 4))) ->
  (forall i a m, 0 <= i < N -> I i a m -> wp (f i a) L m (I (i + 1))) ->
  (forall a m, I N a m -> Q a m) ->
  wp (unroll4_acc N b4 f a) L m Q.
Proof.
  intros T A b4 f L I N a m Q HN H0 H4 H1 HQ. unfold unroll4_acc. apply wp_bind.
  destruct (tail_cases N HN) as (Ht1 & Ht2).
  apply wp_for_acc with (I := I); auto; [lia| |].
  - intros i a' m' k Hk Hi Hlo HI. apply H4; auto; lia.
  - intros a' m' HI. eapply wp_eqM. { apply tail3_iter; auto. }
    apply wp_iter with (I := I); auto.
    + intros k a'' m'' Hk HI'.
      replace (loop_end 0 (N - 3) 4 + 1 * (k + 1)) with (loop_end 0 (N - 3) 4 + 1 * k + 1) by lia.
      apply H1; auto. lia.
    + intros a'' m'' HI'. apply HQ.
      replace N with (loop_end 0 (N - 3) 4 + 1 * Z.of_nat (Z.to_nat (N - loop_end 0 (N - 3) 4))) by lia.
      exact HI'.
Qed.

Lemma wp_unroll4 : forall T (b4 f : Z -> M T unit) L (I : Z -> (Z -> T) -> Prop)
    N m (Q : unit -> (Z -> T) -> Prop),
  0 <= N -> I 0 m ->
  (forall i m, 0 <= i -> i + 3 < N -> I i m -> wp (b4 i) L m (fun _ => I (i + 4))) ->
  (forall i m, 0 <= i < N -> I i m -> wp (f i) L m (fun _ => I (i + 1))) ->
  (forall m, I N m -> Q tt m) ->
  wp (unroll4 N b4 f) L m Q.
Proof.
  intros T b4 f L I N m Q HN H0 H4 H1 HQ. unfold unroll4.
  apply wp_unroll4_acc with (I := fun i _ => I i); auto.
  intros [] m'; auto.
Qed.

(* unrolled loop, remainder by a plain loop *)
Lemma wp_unroll4c : forall T (b4 f : Z -> M T unit) L (I : Z -> (Z -> T) -> Prop)
    N m (Q : unit -> (Z -> T) -> Prop),
  0 <= N -> I 0 m ->
  (forall i m, 0 <= i -> i + 3 < N -> I i m -> wp (b4 i) L m (fun _ => I (i + 4))) ->
  (forall i m, 0 <= i < N -> I i m -> wp (f i) L m (fun _ => I (i + 1))) ->
  (forall m, I N m -> Q tt m) ->
  wp (unroll4c N b4 f) L m Q.
Proof.
  intros T b4 f L I N m Q HN H0 H4 H1 HQ. unfold unroll4c. apply wp_bind.
  destruct (tail_cases N HN) as (Ht1 & Ht2).
  apply wp_for_up with (I := I); auto; [lia| |].
  - intros i m' k Hk Hi Hlo HI. apply H4; auto; lia.
  - intros m' HI. apply wp_for1 with (I := I); auto.
    + intros i m'' Hi. apply H1. lia.
    + intros m''. rewrite Z.max_r by lia. apply HQ.
Qed.

Ltac wbind := apply wp_bind.
