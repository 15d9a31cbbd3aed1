(* PSort.v: lemmas on sorting. *)
From Coq Require Import ZArith Lia Bool ZifyBool.
From Verif Require Import Mem MView SpecView PView PSub Hoare MFlags MCopy PUpd PCopy MNum SpecNum SpecPivot MPivot PPivot MSort.
Local Open Scope Z_scope.
Local Open Scope prog_scope.

Ltac split_ifs := repeat match goal with |- context [if ?b then _ else _] =>
  lazymatch b with context [if _ then _ else _] => fail | _ => destruct b eqn:? end end.

(* pi is a permutation of 0..n-1 *)
Definition pb (n : Z) (pi : Z -> Z) : Prop :=
  exists qi, (forall i, 0 <= i < n -> 0 <= pi i < n) /\ (forall i, 0 <= i < n -> 0 <= qi i < n) /\
    (forall i, 0 <= i < n -> pi (qi i) = i) /\ (forall i, 0 <= i < n -> qi (pi i) = i).

Lemma pb_id : forall n, pb n (fun i => i).
Proof. intros n. exists (fun i => i). auto. Qed.

Lemma pb_comp : forall n f g, pb n f -> pb n g -> pb n (fun i => f (g i)).
Proof.
  intros n f g (f' & F1 & F2 & F3 & F4) (g' & G1 & G2 & G3 & G4). exists (fun i => g' (f' i)).
  split; [|split; [|split]]; intros i Hi; auto.
  - rewrite G3; auto.
  - rewrite F4; auto.
Qed.

Lemma pb_range : forall n f i, pb n f -> 0 <= i < n -> 0 <= f i < n.
Proof. intros n f i (g & H & _); auto. Qed.

Lemma pb_inj : forall n f i j, pb n f -> 0 <= i < n -> 0 <= j < n -> f i = f j -> i = j.
Proof. intros n f i j (g & _ & _ & _ & H) Hi Hj E. rewrite <- (H i), <- (H j), E; auto. Qed.

Lemma pb_transp : forall n a b, 0 <= a < n -> 0 <= b < n -> pb n (transp a b).
Proof.
  intros n a b Ha Hb. exists (transp a b). unfold transp.
  repeat split; intros; split_ifs; lia.
Qed.

Lemma pb_ext : forall n f g, (forall i, 0 <= i < n -> f i = g i) -> pb n f -> pb n g.
Proof.
  intros n f g E (f' & F1 & F2 & F3 & F4). exists f'. repeat split; intros; rewrite <- ?E; auto; try apply F1; try apply F2; auto.
Qed.

(* the insertion of position k before position r *)
Definition cyc (r k i : Z) : Z := if i <? r then i else if i =? r then k else if i <=? k then i - 1 else i.
Lemma pb_cyc : forall n r k, 0 <= r <= k -> k < n -> pb n (cyc r k).
Proof.
  intros n r k Hr Hk.
  exists (fun i => if i <? r then i else if i =? k then r else if i <? k then i + 1 else i). unfold cyc.
  repeat split; intros; split_ifs; lia.
Qed.

(* permutations of the two sides of position j *)
Definition glue (j : Z) (f g : Z -> Z) (i : Z) : Z :=
  if i <? j then f i else if i =? j then j else j + 1 + g (i - j - 1).
Lemma pb_glue : forall n j f g, 0 <= j < n -> pb j f -> pb (n - j - 1) g -> pb n (glue j f g).
Proof.
  intros n j f g Hj (f' & F1 & F2 & F3 & F4) (g' & G1 & G2 & G3 & G4).
  exists (glue j f' g'). unfold glue.
  assert (X : forall f f' g g' : Z -> Z, (forall i, 0 <= i < j -> 0 <= f i < j) -> (forall i, 0 <= i < n - j - 1 -> 0 <= g i < n - j - 1) ->
     (forall i, 0 <= i < j -> f' (f i) = i) -> (forall i, 0 <= i < n - j - 1 -> g' (g i) = i) ->
     forall i, 0 <= i < n -> 0 <= glue j f g i < n /\ glue j f' g' (glue j f g i) = i).
  { clear - Hj. intros f f' g g' F G F' G' i Hi. unfold glue.
    destruct (i <? j) eqn:E1; [|destruct (i =? j) eqn:E2].
    - specialize (F i ltac:(lia)). replace (f i <? j) with true by lia. rewrite F' by lia. cbv iota. lia.
    - rewrite Z.ltb_irrefl, Z.eqb_refl. cbv iota. lia.
    - specialize (G (i - j - 1) ltac:(lia)).
      replace (j + 1 + g (i - j - 1) <? j) with false by lia. replace (j + 1 + g (i - j - 1) =? j) with false by lia.
      replace (j + 1 + g (i - j - 1) - j - 1) with (g (i - j - 1)) by lia. rewrite G' by lia. cbv iota. lia. }
  split; [|split; [|split]]; intros i Hi.
  - apply (X f f' g g'); auto.
  - apply (X f' f g' g); auto.
  - apply (X f' f g' g); auto.
  - apply (X f f' g g'); auto.
Qed.

(* the vector x is permuted by pi *)
Definition vmoved {T} (x : view) (pi : Z -> Z) (m m' : Z -> T) : Prop :=
  (forall k, 0 <= k < vlen x -> velt m' x k = velt m x (pi k)) /\ only_changes x m m'.

Section S.
  Context {T : Type} (K : num T).
  Implicit Types (m : Z -> T) (L : Z -> bool).

  Lemma vmoved_id : forall x m, vmoved x (fun i => i) m m.
  Proof. intros x m. split; auto. intros a _; reflexivity. Qed.

  Lemma vmoved_trans : forall x f g m m1 m2, (forall k, 0 <= k < vlen x -> 0 <= g k < vlen x) ->
    vmoved x f m m1 -> vmoved x g m1 m2 -> vmoved x (fun i => f (g i)) m m2.
  Proof.
    intros x f g m m1 m2 Hg (H1 & O1) (H2 & O2). split; [|eapply only_trans; eauto].
    intros k Hk. rewrite H2, H1; auto.
  Qed.

  Lemma get_at_wp : forall L m x k (Q : T -> (Z -> T) -> Prop), isvec x -> wf x -> allocated L x -> 0 <= k < vlen x ->
    Q (velt m x k) m -> wp (armas_get_at_unsafe x k) L m Q.
  Proof.
    intros L m x k Q V W A Hk HQ. unfold armas_get_at_unsafe. eapply wp_rd_v; eauto.
    destruct (vaddr x k V W Hk) as (_ & E). rewrite E, mad_addr. unfold mad, vad. cbn [fst snd]. reflexivity.
  Qed.

  Lemma set_at_addr : forall x k, elems x + (if rows x =? 1 then k * step x else k) = vad x k.
  Proof. intros x k. unfold vad, vec_pos. destruct (rows x =? 1); cbn [fst snd]; lia. Qed.

  Lemma swap_at_wp : forall L m x k l (Q : unit -> (Z -> T) -> Prop), isvec x -> wf x -> allocated L x ->
    0 <= k < vlen x -> 0 <= l < vlen x ->
    (forall m', vmoved x (transp k l) m m' -> Q tt m') ->
    wp (swap_at x k l) L m Q.
  Proof.
    intros L m x k l Q V W A Hk Hl HQ. unfold swap_at.
    wbind. apply get_at_wp; auto. wbind. apply get_at_wp; auto. unfold armas_set_at_unsafe. rewrite !set_at_addr.
    wbind. eapply wp_wr_v with (x := x) (m0 := m) (k := k) (S := fun _ => False) (F := fun i => velt m x (transp k l i)); auto.
    { apply upd_nil. auto. } { contradiction. }
    { f_equal. unfold transp. rewrite Z.eqb_refl. reflexivity. }
    cbv beta. intros m1 U1.
    eapply wp_wr_v; [exact U1| | | | | | reflexivity| |]; auto.
    { cbv beta. intros q [[]| ->]. exact Hk. }
    { cbv beta. f_equal. unfold transp. split_ifs; lia. }
    cbv beta. intros m2 U2. apply HQ. split.
    - intros i Hi. rewrite velt_vad. destruct (Z.eq_dec i k) as [->|N1]; [|destruct (Z.eq_dec i l) as [->|N2]].
      + apply (upd_new _ _ _ _ _ _ U2). auto.
      + apply (upd_new _ _ _ _ _ _ U2). auto.
      + rewrite (vupd_old _ _ _ _ _ i U2); auto.
        * unfold transp. replace (i =? k) with false by lia. replace (i =? l) with false by lia. reflexivity.
        * cbv beta. intros q [[[]| ->]| ->]; auto.
        * cbv beta. lia.
    - eapply vupd_only; eauto. cbv beta. intros q [[[]| ->]| ->]; auto.
  Qed.

  (* ---- insertion sort ---- *)

  Definition lt (up : bool) (a b : T) : bool := if up then ltb K a b else ltb K b a.
  Lemma before_lt : forall up a b, before K up a b = negb (lt up b a).
  Proof. intros [] a b; reflexivity. Qed.

  Section Order.
  Context (HO : ltb_ok K).
  Lemma lt_irr : forall up a, lt up a a = false.
  Proof. destruct HO as (H & _). intros [] a; apply H. Qed.
  Lemma lt_trans : forall up a b c, lt up a b = true -> lt up b c = true -> lt up a c = true.
  Proof. destruct HO as (_ & H & _). intros [] a b c H1 H2; eapply H; eauto. Qed.
  Lemma lt_total : forall up a b, lt up a b = true \/ a = b \/ lt up b a = true.
  Proof. destruct HO as (_ & _ & H). intros [] a b; destruct (H a b) as [?|[?|?]]; auto. Qed.
  Lemma lt_asym : forall up a b, lt up a b = true -> lt up b a = false.
  Proof.
    intros up a b H. destruct (lt up b a) eqn:E; auto.
    pose proof (lt_trans _ _ _ _ H E) as X. rewrite lt_irr in X. discriminate.
  Qed.
  Lemma le_trans : forall up a b c, lt up b a = false -> lt up c b = false -> lt up c a = false.
  Proof.
    intros up a b c H1 H2. destruct (lt up c a) eqn:E; auto.
    destruct (lt_total up a b) as [X|[X|X]]; [|subst; congruence|congruence].
    pose proof (lt_trans _ _ _ _ E X). congruence.
  Qed.
  Lemma lt_le : forall up a b, lt up a b = true -> lt up b a = false.
  Proof. exact lt_asym. Qed.

  Context (g : T -> T) (Hg : forall a, g (g a) = g a).

  Lemma shift_wp : forall L m1 x up k get, isvec x -> wf x -> allocated L x -> 0 <= k < vlen x ->
    (forall i m (Q : T -> (Z -> T) -> Prop), 0 <= i < vlen x -> Q (g (velt m x i)) m -> wp (get i) L m Q) ->
    forall cval j m (Q : Z -> (Z -> T) -> Prop), Z.of_nat j <= k ->
    upd m1 (vad x) (fun i => g (velt m1 x (i - 1))) (fun i => Z.of_nat j < i <= k) m ->
    (forall i, Z.of_nat j <= i < k -> lt up cval (g (velt m1 x i)) = true) ->
    (forall r m', 0 <= r <= k -> upd m1 (vad x) (fun i => g (velt m1 x (i - 1))) (fun i => r < i <= k) m' ->
       (forall i, r <= i < k -> lt up cval (g (velt m1 x i)) = true) ->
       (0 < r -> lt up cval (g (velt m1 x (r - 1))) = false) -> Q r m') ->
    wp (shift K get x up cval j) L m Q.
  Proof.
    intros L m1 x up k get V W A Hk Hget cval. induction j as [|j IH]; intros m Q Hj U Hgt HQ; cbn [shift].
    - apply wp_ret. apply HQ; auto; lia.
    - wbind. apply Hget; [lia|].
      assert (E : velt m x (Z.of_nat j) = velt m1 x (Z.of_nat j)).
      { rewrite !velt_vad. eapply vupd_old; eauto; unfold vdom; cbv beta; intros; lia. }
      rewrite E. rewrite before_lt. apply wp_if; intros Hb.
      + apply wp_ret. apply HQ; auto; try lia. intros _.
        replace (Z.of_nat (S j) - 1) with (Z.of_nat j) by lia. destruct (lt _ _ _); auto; discriminate.
      + wbind. unfold armas_set_at_unsafe. rewrite set_at_addr.
        eapply wp_wr_v; [exact U| | | | | | reflexivity| |]; auto.
        { unfold vdom; cbv beta; intros; lia. }
        { unfold vdom; lia. }
        { cbv beta. replace (Z.of_nat (S j) - 1) with (Z.of_nat j) by lia. reflexivity. }
        cbv beta. intros m' U'. apply IH; [lia| | |exact HQ].
        * eapply upd_ext; [|exact U']. cbv beta. intros q. lia.
        * intros i Hi. destruct (Z.eq_dec i (Z.of_nat j)) as [->|Ni].
          { destruct (lt _ _ _); auto; discriminate. }
          apply Hgt. lia.
  Qed.

  (* the magnitudes g are permuted and in order *)
  Definition gsorted (x : view) (up : bool) (n : Z) m : Prop :=
    forall i j, 0 <= i -> i < j -> j < n -> lt up (g (velt m x j)) (g (velt m x i)) = false.

  Lemma isort_wp : forall L m x up get (Q : unit -> (Z -> T) -> Prop), isvec x -> wf x -> allocated L x ->
    (forall i m (Q : T -> (Z -> T) -> Prop), 0 <= i < vlen x -> Q (g (velt m x i)) m -> wp (get i) L m Q) ->
    (forall m' pi, pb (vlen x) pi -> (forall i, 0 <= i < vlen x -> g (velt m' x i) = g (velt m x (pi i))) ->
       only_changes x m m' -> gsorted x up (vlen x) m' -> Q tt m') ->
    wp (isort K get x up) L m Q.
  Proof.
    intros L m x up get Q V W A Hget HQ. unfold isort. change (armas_size x) with (vlen x).
    assert (N0 : 0 <= vlen x) by (destruct W as (? & ? & ?); unfold vlen; nia).
    apply wp_for1 with (I := fun k m1 => exists pi, pb (vlen x) pi /\
      (forall i, 0 <= i < vlen x -> g (velt m1 x i) = g (velt m x (pi i))) /\ only_changes x m m1 /\ gsorted x up (Z.min k (vlen x)) m1).
    - exists (fun i => i). split; [apply pb_id|]. split; [auto|]. split; [intros a _; auto|]. intros i j; lia.
    - intros k m1 Hk (pi & P1 & P2 & P3 & P4). rewrite Z.min_l in P4 by lia.
      wbind. apply Hget; [lia|]. wbind.
      set (cval := g (velt m1 x k)).
      eapply shift_wp with (m1 := m1) (k := k); auto; try lia.
      + apply upd_nil. intros p. lia.
      + intros r m2 Hr U2 Hgt Hle. unfold armas_set_at_unsafe. rewrite set_at_addr.
        eapply wp_wr_vo with (G := fun i => if i =? r then cval else g (velt m1 x (i - 1))); [exact U2| | | | | | reflexivity| | |]; auto.
        { unfold vdom; cbv beta; intros; lia. }
        { unfold vdom; lia. }
        { rewrite Z.eqb_refl; auto. }
        { cbv beta. intros q Hq Nq. replace (q =? r) with false by lia. auto. }
        cbv beta. intros m3 U3.
        assert (F : forall i, 0 <= i < vlen x -> g (velt m3 x i) = g (velt m1 x (cyc r k i))).
        { intros i Hi. rewrite velt_vad. unfold cyc.
          destruct (i <? r) eqn:E1.
          - rewrite (vupd_old _ _ _ _ _ i U3); auto; unfold vdom; cbv beta; intros; lia.
          - destruct (i =? r) eqn:E2.
            + assert (i = r) by lia; subst i. rewrite (upd_new _ _ _ _ _ r U3) by (cbv beta; auto). cbv beta. rewrite Z.eqb_refl. apply Hg.
            + destruct (i <=? k) eqn:E3.
              * rewrite (upd_new _ _ _ _ _ i U3) by (cbv beta; lia). cbv beta. rewrite E2. apply Hg.
              * rewrite (vupd_old _ _ _ _ _ i U3); auto; unfold vdom; cbv beta; intros; lia. }
        assert (CB : pb (vlen x) (cyc r k)) by (apply pb_cyc; lia).
        exists (fun i => pi (cyc r k i)). split; [apply (pb_comp _ pi); auto|]. split.
        { intros i Hi. rewrite F by auto. apply P2. apply pb_range; auto. }
        split.
        { eapply only_trans; [exact P3|]. eapply vupd_only; eauto. unfold vdom; cbv beta; intros; lia. }
        rewrite Z.min_l by lia.
        intros i j Hi Hij Hj. rewrite !F by lia. unfold cyc.
        destruct (j <? r) eqn:J1.
        { replace (i <? r) with true by lia. apply P4; lia. }
        destruct (j =? r) eqn:J2.
        { replace (i <? r) with true by lia. fold cval.
          apply le_trans with (b := g (velt m1 x (r - 1))); [|apply Hle; lia].
          destruct (Z.eq_dec i (r - 1)) as [->|]; [apply lt_irr|]. apply P4; lia. }
        replace (j <=? k) with true by lia.
        destruct (i <? r) eqn:I1.
        { apply P4; lia. }
        destruct (i =? r) eqn:I2.
        { fold cval. apply lt_le. apply Hgt. lia. }
        replace (i <=? k) with true by lia. apply P4; lia.
    - intros m1 (pi & P1 & P2 & P3 & P4). apply (HQ m1 pi); auto. intros i j Hi Hij Hj. apply P4; lia.
  Qed.
  End Order.
End S.
