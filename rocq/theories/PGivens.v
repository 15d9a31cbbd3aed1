(* PGivens.v: lemmas about Givens rotations. *)
From Coq Require Import ZArith Lia Bool ZifyBool.
From Verif Require Import Mem MView MFlags SpecView MNum SpecNum Hoare PView PUpd PFrame PNorm PSort MGivens SpecGivens.
Local Open Scope Z_scope.
Local Open Scope prog_scope.
Ltac lia := Lia.lia.

Section G.
  Context {T : Type} (K : num T).

  (* one write of element (p, q) *)
  Lemma elt_w : forall (m : Z -> T) A p q v i j, wf A -> pos A p q -> pos A i j ->
    elt (fun a => if a =? elems A + q * step A + p then v else m a) A i j = if (i =? p) && (j =? q) then v else elt m A i j.
  Proof.
    intros m A p q v i j W H1 H2. unfold elt. destruct (elems A + j * step A + i =? elems A + q * step A + p) eqn:E.
    - destruct (pos_inj A i j p q W H2 H1) as (-> & ->); [lia|]. rewrite !Z.eqb_refl. reflexivity.
    - destruct ((i =? p) && (j =? q)) eqn:E1; [|reflexivity]. exfalso. assert (i = p /\ j = q) as (-> & ->) by lia. lia.
  Qed.

  Lemma only_w : forall (m m' : Z -> T) A p q v, pos A p q -> only_changes A m m' ->
    only_changes A m (fun a => if a =? elems A + q * step A + p then v else m' a).
  Proof.
    intros m m' A p q v H O a Ha. destruct (a =? elems A + q * step A + p) eqn:E; [|apply O; auto].
    exfalso. apply Ha. exists p, q. split; auto. lia.
  Qed.

  Lemma gvleft_wp : forall L m A c s r1 r2 col ncol, wf A -> allocated L A ->
    0 <= r1 < rows A -> 0 <= r2 < rows A -> r1 <> r2 -> 0 <= col -> 0 <= ncol -> col + ncol <= cols A ->
    wp (gvleft K A c s r1 r2 col ncol) L m (fun _ m' =>
      (forall i j, pos A i j -> elt m' A i j =
         if (col <=? j) && (j <? col + ncol) then rotrows K c s r1 r2 (elt m A) i j else elt m A i j) /\
      only_changes A m m').
  Proof.
    intros L m A c s r1 r2 col ncol W LA H1 H2 N H3 H4 H5. unfold gvleft.
    apply wp_for1 with (I := fun k m' =>
      (forall i j, pos A i j -> elt m' A i j =
         if (col <=? j) && (j <? col + k) then rotrows K c s r1 r2 (elt m A) i j else elt m A i j) /\
      only_changes A m m').
    - split; [|intros a _; reflexivity]. intros i j Hp. replace (_ && _) with false by lia. reflexivity.
    - intros k m1 Hk (I1 & I2).
      assert (P1 : pos A r1 (col + k)) by (split; lia). assert (P2 : pos A r2 (col + k)) by (split; lia).
      replace (elems A + (col * step A + r1) + k * step A) with (elems A + (col + k) * step A + r1) by ring.
      replace (elems A + (col * step A + r2) + k * step A) with (elems A + (col + k) * step A + r2) by ring.
      assert (L1 : L (elems A + (col + k) * step A + r1) = true) by (apply LA; exists r1, (col + k); auto).
      assert (L2 : L (elems A + (col + k) * step A + r2) = true) by (apply LA; exists r2, (col + k); auto).
      wbind. apply wp_rd; auto. wbind. apply wp_rd; auto. wbind. apply wp_wr; auto. apply wp_wr; auto.
      change (m1 (elems A + (col + k) * step A + r1)) with (elt m1 A r1 (col + k)).
      change (m1 (elems A + (col + k) * step A + r2)) with (elt m1 A r2 (col + k)).
      rewrite (I1 r1 (col + k)), (I1 r2 (col + k)) by auto.
      replace ((col <=? col + k) && (col + k <? col + k)) with false by lia.
      split; [|apply only_w; auto; apply only_w; auto].
      intros i j Hp. rewrite elt_w, elt_w by auto. rewrite I1 by auto.
      destruct (j =? col + k) eqn:Ej.
      + assert (j = col + k) by lia; subst j. replace ((col <=? col + k) && (col + k <? col + k)) with false by lia.
        replace ((col <=? col + k) && (col + k <? col + (k + 1))) with true by lia. rewrite !andb_true_r.
        unfold rotrows. destruct (i =? r1) eqn:E1; [reflexivity|]. destruct (i =? r2); reflexivity.
      + rewrite !andb_false_r. replace ((col <=? j) && (j <? col + (k + 1))) with ((col <=? j) && (j <? col + k)) by lia. reflexivity.
    - intros m1. rewrite Z.max_r by lia. auto.
  Qed.

  Lemma gvright_wp : forall L m A c s c1 c2 row nrow, wf A -> allocated L A ->
    0 <= c1 < cols A -> 0 <= c2 < cols A -> c1 <> c2 -> 0 <= row -> 0 <= nrow -> row + nrow <= rows A ->
    wp (gvright K A c s c1 c2 row nrow) L m (fun _ m' =>
      (forall i j, pos A i j -> elt m' A i j =
         if (row <=? i) && (i <? row + nrow) then rotcols K c s c1 c2 (elt m A) i j else elt m A i j) /\
      only_changes A m m').
  Proof.
    intros L m A c s c1 c2 row nrow W LA H1 H2 N H3 H4 H5. unfold gvright.
    apply wp_for1 with (I := fun k m' =>
      (forall i j, pos A i j -> elt m' A i j =
         if (row <=? i) && (i <? row + k) then rotcols K c s c1 c2 (elt m A) i j else elt m A i j) /\
      only_changes A m m').
    - split; [|intros a _; reflexivity]. intros i j Hp. replace (_ && _) with false by lia. reflexivity.
    - intros k m1 Hk (I1 & I2).
      assert (P1 : pos A (row + k) c1) by (split; lia). assert (P2 : pos A (row + k) c2) by (split; lia).
      replace (elems A + (c1 * step A + row) + k) with (elems A + c1 * step A + (row + k)) by ring.
      replace (elems A + (c2 * step A + row) + k) with (elems A + c2 * step A + (row + k)) by ring.
      assert (L1 : L (elems A + c1 * step A + (row + k)) = true) by (apply LA; exists (row + k), c1; auto).
      assert (L2 : L (elems A + c2 * step A + (row + k)) = true) by (apply LA; exists (row + k), c2; auto).
      wbind. apply wp_rd; auto. wbind. apply wp_rd; auto. wbind. apply wp_wr; auto. apply wp_wr; auto.
      change (m1 (elems A + c1 * step A + (row + k))) with (elt m1 A (row + k) c1).
      change (m1 (elems A + c2 * step A + (row + k))) with (elt m1 A (row + k) c2).
      rewrite (I1 (row + k) c1), (I1 (row + k) c2) by auto.
      replace ((row <=? row + k) && (row + k <? row + k)) with false by lia.
      split; [|apply only_w; auto; apply only_w; auto].
      intros i j Hp. rewrite elt_w, elt_w by auto. rewrite I1 by auto.
      destruct (i =? row + k) eqn:Ej.
      + assert (i = row + k) by lia; subst i. replace ((row <=? row + k) && (row + k <? row + k)) with false by lia.
        replace ((row <=? row + k) && (row + k <? row + (k + 1))) with true by lia. cbn [andb].
        unfold rotcols. destruct (j =? c1) eqn:E1; [reflexivity|]. destruct (j =? c2); reflexivity.
      + cbn [andb]. replace ((row <=? i) && (i <? row + (k + 1))) with ((row <=? i) && (i <? row + k)) by lia. reflexivity.
    - intros m1. rewrite Z.max_r by lia. auto.
  Qed.

  (* rotations only use positions of the matrix *)
  Lemma rotrows_ext : forall c s p q (X Y : Z -> Z -> T) A i j, (forall i j, pos A i j -> X i j = Y i j) ->
    0 <= p < rows A -> 0 <= q < rows A -> pos A i j -> rotrows K c s p q X i j = rotrows K c s p q Y i j.
  Proof.
    intros c s p q X Y A i j H Hp Hq (P1 & P2). unfold rotrows. rewrite !H by (split; auto). reflexivity.
  Qed.
  Lemma rotcols_ext : forall c s p q (X Y : Z -> Z -> T) A i j, (forall i j, pos A i j -> X i j = Y i j) ->
    0 <= p < cols A -> 0 <= q < cols A -> pos A i j -> rotcols K c s p q X i j = rotcols K c s p q Y i j.
  Proof.
    intros c s p q X Y A i j H Hp Hq (P1 & P2). unfold rotcols. rewrite !H by (split; auto). reflexivity.
  Qed.

  Section Ring.
    Hypotheses (HR : is_ring K) (HE : eqb_ok K).
    Let HR' : ring_theory (zero K) (one K) (add K) (mul K) (sub K) (opp K) eq := HR.
    Add Ring KringG : HR'.

    Lemma rot_unit : forall left p q X i j, rot K left (one K) (zero K) p q X i j = X i j.
    Proof.
      intros [] p q X i j; cbn [rot]; unfold rotrows, rotcols.
      - destruct (i =? p) eqn:E; [assert (i = p) by lia; subst; ring|]. destruct (i =? q) eqn:E'; [|reflexivity]. assert (i = q) by lia; subst. ring.
      - destruct (j =? p) eqn:E; [assert (j = p) by lia; subst; ring|]. destruct (j =? q) eqn:E'; [|reflexivity]. assert (j = q) by lia; subst. ring.
    Qed.

    Lemma rot_step_wp : forall (left : bool) L m A c s k, wf A -> allocated L A ->
      0 <= k -> k + 1 < (if left then rows A else cols A) ->
      wp (when (not_unit K c s) (if left then gvleft K A c s k (k + 1) 0 (cols A) else gvright K A c s k (k + 1) 0 (rows A))) L m
        (fun _ m' => (forall i j, pos A i j -> elt m' A i j = rot K left c s k (k + 1) (elt m A) i j) /\ only_changes A m m').
    Proof.
      intros left L m A c s k W LA H1 H2. apply wp_when.
      - intros _. pose proof W as (W1 & W2 & W3). destruct left.
        + eapply wp_conseq; [apply gvleft_wp; auto; lia|]. intros _ m' (E & O). split; auto.
          intros i j Hp. rewrite E by auto. destruct Hp as (P1 & P2). replace (_ && _) with true by lia. reflexivity.
        + eapply wp_conseq; [apply gvright_wp; auto; lia|]. intros _ m' (E & O). split; auto.
          intros i j Hp. rewrite E by auto. destruct Hp as (P1 & P2). replace (_ && _) with true by lia. reflexivity.
      - intros Hn. unfold not_unit in Hn. apply orb_false_elim in Hn. destruct Hn as (N1 & N2).
        assert (c = one K) by (apply HE; destruct (eqb K c (one K)); auto; discriminate).
        assert (s = zero K) by (apply HE; destruct (eqb K s (zero K)); auto; discriminate). subst c s.
        split; [|intros a _; reflexivity]. intros i j Hp. rewrite rot_unit. reflexivity.
    Qed.
  End Ring.
End G.
