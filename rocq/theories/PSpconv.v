(* PSpconv.v: results of conversion and sorting in terms of the stored elements. *)
From Coq Require Import ZArith List Bool Lia Sorting.Permutation Sorting.Sorted Ring.
From Verif Require Import Mem MView MNum SpecNum Hoare MFlags MSparse SpecSparse PFrame PSparse PSpsort.
Import ListNotations.
Local Open Scope Z_scope.
Local Open Scope prog_scope.
Ltac lia := first [zlia | Lia.lia].

Section Value.
  Context {T : Type} (K : num T) (HR : is_ring K).
  Let HR' : ring_theory (zero K) (one K) (add K) (mul K) (sub K) (opp K) eq := HR.
  Add Ring Rv : HR'.

  Definition vsumpos (i j : Z) (l : list (Z * Z * T)) : T :=
    fold_right (fun e s => if at_pos i j e then add K (snd e) s else s) (zero K) l.

  Lemma vsumpos_perm : forall i j l l', Permutation l l' -> vsumpos i j l = vsumpos i j l'.
  Proof.
    intros i j l l' H. unfold vsumpos. induction H; cbn [fold_right]; auto.
    - rewrite IHPermutation. reflexivity.
    - destruct (at_pos i j y), (at_pos i j x); auto. ring.
    - congruence.
  Qed.

  Lemma vsumpos_swap : forall i j l, vsumpos i j (map swap_pos l) = vsumpos j i l.
  Proof.
    intros i j l. unfold vsumpos. induction l as [|e l IH]; [reflexivity|]. cbn [map fold_right]. rewrite IH.
    replace (at_pos i j (swap_pos e)) with (at_pos j i e); [reflexivity|].
    unfold at_pos, swap_pos. cbn [fst snd]. apply andb_comm.
  Qed.

  Lemma value_perm : forall (A B : sparse T) i j, Permutation (entries A) (entries B) -> value K A i j = value K B i j.
  Proof. intros. apply vsumpos_perm. auto. Qed.
End Value.

Lemma swap_swap : forall T (e : Z * Z * T), swap_pos (swap_pos e) = e.
Proof. intros T [[a b] c]. reflexivity. Qed.

Lemma map_swap_swap : forall T (l : list (Z * Z * T)), map swap_pos (map swap_pos l) = l.
Proof. intros. rewrite map_map. rewrite <- (map_id l) at 2. apply map_ext. apply swap_swap. Qed.

Lemma nodup_app_r : forall E (a b : list E), NoDup (a ++ b) -> NoDup b.
Proof. intros E a b. induction a as [|x a IH]; cbn [app]; intros H; auto. inversion H; auto. Qed.
Lemma nodup_app_l : forall E (a b : list E), NoDup (a ++ b) -> NoDup a.
Proof.
  intros E a b. induction a as [|x a IH]; cbn [app]; intros H; constructor; inversion H; subst; auto.
  intros Hx. apply H2. apply in_app_iff. auto.
Qed.

(* ---- sorted lists ---- *)
Lemma ss_app : forall E (R : E -> E -> Prop) a x b, StronglySorted R (a ++ x :: b) -> Forall (R x) b.
Proof.
  intros E R a x b. induction a as [|y a IH]; cbn [app]; intros H; inversion H; auto.
Qed.

Lemma ss_app_intro : forall E (R : E -> E -> Prop) a b, StronglySorted R a -> StronglySorted R b ->
  (forall x y, In x a -> In y b -> R x y) -> StronglySorted R (a ++ b).
Proof.
  intros E R a b. induction a as [|x a IH]; cbn [app]; intros Ha Hb H; auto. inversion Ha; subst. constructor.
  - apply IH; auto. intros; apply H; auto. right; auto.
  - apply Forall_app. split; auto. apply Forall_forall. intros y Hy. apply H; auto. left; auto.
Qed.

Lemma ss_filter : forall E (R : E -> E -> Prop) p l, StronglySorted R l -> StronglySorted R (filter p l).
Proof.
  intros E R p l H. induction H; cbn [filter]; [constructor|]. destruct (p a); auto. constructor; auto.
  apply Forall_forall. intros y Hy. apply filter_In in Hy as [Hy _]. rewrite Forall_forall in H0. auto.
Qed.

Lemma ss_map : forall E F (g : E -> F) (R : F -> F -> Prop) l,
  StronglySorted (fun a b => R (g a) (g b)) l -> StronglySorted R (map g l).
Proof.
  intros E F g R l H. induction H; cbn [map]; constructor; auto. rewrite Forall_map. auto.
Qed.

Lemma ss_map_inv : forall E F (g : E -> F) (R : F -> F -> Prop) l,
  StronglySorted R (map g l) -> StronglySorted (fun a b => R (g a) (g b)) l.
Proof.
  intros E F g R l. induction l as [|a l IH]; intros H; [constructor|]. cbn [map] in H. inversion H; subst. constructor; auto.
  rewrite Forall_map in H3. auto.
Qed.

Lemma ss_zr : forall (R : Z -> Z -> Prop) lo hi,
  (forall p q, lo <= p -> p < q -> q < hi -> R p q) -> StronglySorted R (zr lo hi).
Proof.
  intros R lo hi H. destruct (Z_le_gt_dec hi lo). { rewrite zr_nil by lia. constructor. }
  remember (Z.to_nat (hi - lo)) as n eqn:E. revert lo H E g.
  induction n as [|n IH]; intros lo H E g; [lia|]. rewrite zr_cons by lia. constructor.
  - destruct (Z_le_gt_dec hi (lo + 1)). { rewrite zr_nil by lia. constructor. }
    apply IH; try lia. intros. apply H; lia.
  - apply Forall_forall. intros q Hq. apply zr_in in Hq. apply H; lia.
Qed.

Lemma ss_zr_inv : forall (R : Z -> Z -> Prop) lo hi, StronglySorted R (zr lo hi) ->
  forall p q, lo <= p -> p < q -> q < hi -> R p q.
Proof.
  intros R lo hi H p q H1 H2 H3. rewrite (zr_app lo p hi) in H by lia. rewrite (zr_cons p hi) in H by lia.
  apply ss_app in H. rewrite Forall_forall in H. apply H. apply zr_in. lia.
Qed.

(* a strictly sorted list is determined by its elements *)
Lemma ss_unique : forall E (R : E -> E -> Prop) l l',
  (forall a, ~ R a a) -> (forall a b c, R a b -> R b c -> R a c) ->
  StronglySorted R l -> StronglySorted R l' -> Permutation l l' -> l = l'.
Proof.
  intros E R l l' Hirr Htr H. revert l'. induction H as [|a l Hl IH Ha]; intros l' H' P.
  - apply Permutation_nil in P. auto.
  - destruct l' as [|b l']. { apply Permutation_sym, Permutation_nil in P. discriminate. }
    inversion H' as [|b' l'' Hl' Hb]; subst. rewrite Forall_forall in Ha, Hb.
    assert (E1 : a = b).
    { assert (I1 : In b (a :: l)) by (apply (Permutation_in _ (Permutation_sym P)); left; auto).
      assert (I2 : In a (b :: l')) by (apply (Permutation_in _ P); left; auto).
      destruct I1 as [I1|I1]; [auto|]. destruct I2 as [I2|I2]; [auto|].
      destruct (Hirr a). eapply Htr; [apply Ha; exact I1|apply Hb; exact I2]. }
    subst b. f_equal. apply IH; auto. apply Permutation_cons_inv in P. exact P.
Qed.

Section Struct.
  Context {T : Type}.
  Notation item := (Z * Z * T)%type.

  (* line, index, value -> row, column, value *)
  Definition oriented (kind : spkind) (l : list item) : list item :=
    match kind with CSC => map swap_pos l | _ => l end.

  Lemma oriented_in : forall kind l e, In e (oriented kind l) <->
    In (match kind with CSC => swap_pos e | _ => e end) l.
  Proof.
    intros kind l e. destruct kind; cbn [oriented]; try tauto. rewrite in_map_iff. split.
    - intros (x & <- & H). rewrite swap_swap. auto.
    - intros H. exists (swap_pos e). rewrite swap_swap. auto.
  Qed.

  Lemma flat_map_map : forall E F G (f : E -> list F) (g : F -> G) l,
    map g (flat_map f l) = flat_map (fun a => map g (f a)) l.
  Proof. intros E F G f g l. induction l as [|a l IH]; [reflexivity|]. cbn [flat_map]. rewrite map_app, IH. reflexivity. Qed.

  (* the stored elements of a compressed matrix, line by line *)
  Definition lentries (A : sparse T) : list item :=
    flat_map (fun j => map (fun e => (j, fst e, snd e)) (line_of A j)) (zr 0 (sp_nptr A)).

  Lemma entries_lentries : forall A, sp_kind A <> COO -> entries A = oriented (sp_kind A) (lentries A).
  Proof.
    intros A H. unfold entries, lentries, oriented. destruct (sp_kind A); try congruence.
    rewrite flat_map_map. apply flat_map_ext_zr. intros j Hj. rewrite map_map. reflexivity.
  Qed.

  Lemma oriented_perm : forall kind l l', Permutation l l' -> Permutation (oriented kind l) (oriented kind l').
  Proof. intros kind l l' H. destruct kind; cbn [oriented]; auto. apply Permutation_map; auto. Qed.

  Lemma Permutation_flat_map_ptwise : forall E F (f g : E -> list F) l,
    (forall a, In a l -> Permutation (f a) (g a)) -> Permutation (flat_map f l) (flat_map g l).
  Proof.
    intros E F f g l. induction l as [|a l IH]; intros H; cbn [flat_map]; [constructor|].
    apply Permutation_app; [apply H; left; auto|apply IH; intros; apply H; right; auto].
  Qed.

  Lemma grouped_lentries : forall n items (A : sparse T),
    (forall e, In e items -> 0 <= iline e < n) ->
    grouped n items (sp_ptr A) (sp_ix A) (sp_v A) -> sp_nptr A = n ->
    Permutation (lentries A) items.
  Proof.
    intros n items A Hin [Hp Hm] Hn. etransitivity; [|apply (grouped_perm n items Hin)].
    unfold lentries. rewrite Hn. erewrite flat_map_ext_zr; [reflexivity|]. intros j Hj. cbn beta.
    unfold line_of. rewrite !Hp by lia. rewrite Hm by lia. reflexivity.
  Qed.

  (* an index range in terms of the source elements *)
  Lemma grouped_valid : forall n w items (A : sparse T),
    0 <= n -> 0 <= w -> in_lines n w items -> sp_kind A <> COO ->
    grouped n items (sp_ptr A) (sp_ix A) (sp_v A) ->
    sp_nptr A = n -> nlines A = n -> linelen A = w ->
    sp_nnz A = Z.of_nat (length items) -> sp_nnz A <= sp_size A ->
    alen (sp_v A) = sp_size A -> alen (sp_ix A) = sp_size A -> alen (sp_ptr A) = n + 1 ->
    valid A.
  Proof.
    intros n w items A Hn Hw Hin Hk Hg En En' Ew Ez Hs Lv Li Lp.
    assert (Hin1 : forall e, In e items -> 0 <= iline e < n) by (intros e He; apply Hin; auto).
    pose proof Hg as [Hp Hm].
    assert (D : 0 <= sp_rows A /\ 0 <= sp_cols A).
    { unfold nlines, linelen in *. destruct (sp_kind A); lia. }
    unfold valid. split; [apply D|]. split; [apply D|]. split; [lia|].
    assert (X : sp_nptr A = nlines A /\ alen (sp_v A) = sp_size A /\ alen (sp_ix A) = sp_size A /\
       alen (sp_ptr A) = nlines A + 1 /\ aget (sp_ptr A) 0 = 0 /\ aget (sp_ptr A) (nlines A) = sp_nnz A /\
       (forall j, 0 <= j < nlines A -> aget (sp_ptr A) j <= aget (sp_ptr A) (j + 1)) /\
       (forall p, 0 <= p < sp_nnz A -> 0 <= aget (sp_ix A) p < linelen A)).
    { rewrite En', Ew. split; [auto|]. split; [auto|]. split; [auto|]. split; [auto|].
      split. { rewrite Hp by lia. apply start_0. intros e He. apply Hin1 in He. lia. }
      split. { rewrite Hp by lia. rewrite Ez. apply start_all. intros e He. apply Hin1 in He. lia. }
      split. { intros j Hj. rewrite !Hp by lia. apply start_mono. lia. }
      intros p Hpp. apply (grouped_index n w items (sp_ptr A) (sp_ix A) (sp_v A)); auto. lia. }
    destruct (sp_kind A); try congruence; exact X.
  Qed.

  Lemma grouped_ascending : forall n items (A : sparse T),
    grouped n items (sp_ptr A) (sp_ix A) (sp_v A) -> nlines A = n ->
    StronglySorted Z.le (map (fun e : item => snd (fst e)) items) -> ascending A.
  Proof.
    intros n items A [Hp Hm] En Hs j p q Hj H1 H2 H3. rewrite En in Hj. rewrite !Hp in * by lia.
    specialize (Hm j ltac:(lia)).
    assert (S1 : StronglySorted Z.le (map fst (map ipair (filter (fun e => iline e =? j) items)))).
    { rewrite map_map. apply ss_map. apply ss_filter. apply ss_map_inv in Hs. exact Hs. }
    rewrite <- Hm in S1. rewrite map_map in S1. cbn [fst] in S1. apply ss_map_inv in S1.
    apply (ss_zr_inv _ _ _ S1 p q); lia.
  Qed.

  Lemma flip_sorted : forall (B : sparse T) n, StronglySorted Z.le (map (fun e : item => snd (fst e)) (flip_items B n)).
  Proof.
    intros B n. unfold flip_items. rewrite flat_map_map.
    destruct (Z_le_gt_dec n 0) as [H|H]. { rewrite zr_nil by lia. constructor. }
    assert (X : forall k : nat, StronglySorted Z.le
      (flat_map (fun k => map (fun e : item => snd (fst e)) (map (fun e => (fst e, k, snd e)) (line_of B k))) (zr 0 (Z.of_nat k))) /\
      forall x, In x (flat_map (fun k => map (fun e : item => snd (fst e)) (map (fun e => (fst e, k, snd e)) (line_of B k))) (zr 0 (Z.of_nat k))) -> x < Z.of_nat k).
    { induction k as [|k [IH1 IH2]].
      - rewrite zr_nil by lia. split; [constructor|intros x []].
      - replace (Z.of_nat (S k)) with (Z.of_nat k + 1) by lia. rewrite zr_snoc by lia. rewrite flat_map_snoc.
        assert (C : forall x, In x (map (fun e : item => snd (fst e)) (map (fun e => (fst e, Z.of_nat k, snd e)) (line_of B (Z.of_nat k)))) -> x = Z.of_nat k).
        { intros x Hx. rewrite map_map in Hx. apply in_map_iff in Hx as (e & <- & _). reflexivity. }
        split.
        + apply ss_app_intro; auto.
          * rewrite map_map. cbn [fst snd]. clear. induction (line_of B (Z.of_nat k)) as [|a l IHl]; cbn [map]; constructor; auto.
            apply Forall_forall. intros y Hy. apply in_map_iff in Hy as (? & <- & _). lia.
          * intros x y Hx Hy. apply IH2 in Hx. apply C in Hy. lia.
        + intros x Hx. apply in_app_iff in Hx as [Hx|Hx]; [apply IH2 in Hx; lia|apply C in Hx; lia]. }
    specialize (X (Z.to_nat n)). rewrite Z2Nat.id in X by lia. apply X.
  Qed.

  Lemma flip_lentries : forall (B : sparse T), flip_items B (sp_nptr B) = map swap_pos (lentries B).
  Proof.
    intros B. unfold flip_items, lentries. rewrite flat_map_map. apply flat_map_ext_zr. intros j Hj.
    rewrite map_map. reflexivity.
  Qed.

  (* where the elements of a valid compressed matrix are *)
  Lemma valid_mono : forall (A : sparse T), valid A -> sp_kind A <> COO ->
    forall a b, 0 <= a <= b -> b <= nlines A -> aget (sp_ptr A) a <= aget (sp_ptr A) b.
  Proof.
    intros A V Hk a b Hab.
    assert (Hm : forall j, 0 <= j < nlines A -> aget (sp_ptr A) j <= aget (sp_ptr A) (j + 1)).
    { unfold valid in V. destruct (sp_kind A); try congruence; apply V. }
    pattern b. apply Zlt_lower_bound_ind with (z := a); [|lia].
    intros x IH Hx Hb. destruct (Z.eq_dec x a) as [->|]; [lia|].
    pose proof (Hm (x - 1) ltac:(lia)) as H1. replace (x - 1 + 1) with x in H1 by lia.
    specialize (IH (x - 1) ltac:(lia) ltac:(lia)). lia.
  Qed.

  Lemma lentries_in : forall (A : sparse T), valid A -> sp_kind A <> COO ->
    in_lines (nlines A) (linelen A) (lentries A).
  Proof.
    intros A V Hk e He.
    assert (W : sp_nptr A = nlines A /\ aget (sp_ptr A) 0 = 0 /\ aget (sp_ptr A) (nlines A) = sp_nnz A /\
      forall p, 0 <= p < sp_nnz A -> 0 <= aget (sp_ix A) p < linelen A).
    { unfold valid in V. destruct (sp_kind A); try congruence; repeat split; apply V; auto. }
    destruct W as (W1 & W2 & W3 & W4).
    unfold lentries in He. apply in_flat_map in He as (j & Hj & He). apply zr_in in Hj.
    apply in_map_iff in He as (x & <- & Hx). unfold line_of in Hx. apply in_map_iff in Hx as (p & <- & Hp).
    apply zr_in in Hp. cbn [fst snd]. unfold iline. cbn [fst].
    pose proof (valid_mono A V Hk 0 j ltac:(lia) ltac:(lia)). pose proof (valid_mono A V Hk (j + 1) (nlines A) ltac:(lia) ltac:(lia)).
    split; [lia|]. apply W4. lia.
  Qed.

  Lemma lentries_length : forall (A : sparse T), valid A -> sp_kind A <> COO ->
    Z.of_nat (length (lentries A)) = sp_nnz A.
  Proof.
    intros A V Hk.
    assert (W : sp_nptr A = nlines A /\ aget (sp_ptr A) 0 = 0 /\ aget (sp_ptr A) (nlines A) = sp_nnz A /\
      (forall j, 0 <= j < nlines A -> aget (sp_ptr A) j <= aget (sp_ptr A) (j + 1)) /\ 0 <= nlines A).
    { unfold valid, nlines in *. destruct (sp_kind A); try congruence; repeat split; try apply V; auto. }
    destruct W as (W1 & W2 & W3 & W4 & W5).
    destruct (line_split (aget (sp_ptr A)) _ (fun p => (aget (sp_ix A) p, aget (sp_v A) p)) (nlines A) W5 W4 W2) as [H1 H2].
    assert (X : length (lentries A) = length (flat_map (fun j => line_of A j) (zr 0 (sp_nptr A)))).
    { unfold lentries. induction (zr 0 (sp_nptr A)) as [|a l IH]; [reflexivity|]. cbn [flat_map].
      rewrite !app_length, map_length, IH. reflexivity. }
    rewrite X, W1. unfold line_of. rewrite H2, map_length, zr_length. lia.
  Qed.

  (* with no position stored twice, ascending means strictly ascending *)
  Lemma strict_of_nodup : forall (A : sparse T), valid A -> sp_kind A <> COO ->
    ascending A -> no_duplicates A -> strictly_ascending A.
  Proof.
    intros A V Hk Ha Hd j p q Hj H1 H2 H3.
    pose proof (Ha j p q Hj H1 H2 H3) as Hle.
    destruct (Z.eq_dec (aget (sp_ix A) p) (aget (sp_ix A) q)) as [E|]; [|lia]. exfalso.
    assert (W1 : sp_nptr A = nlines A).
    { unfold valid in V. destruct (sp_kind A); try congruence; apply V. }
    unfold no_duplicates in Hd. rewrite entries_lentries in Hd by auto.
    assert (Hd' : NoDup (map fst (lentries A))).
    { unfold oriented in Hd. destruct (sp_kind A); auto. rewrite map_map in Hd.
      replace (map (fun x => fst (swap_pos x)) (lentries A)) with
        (map (fun x : Z * Z => (snd x, fst x)) (map fst (lentries A))) in Hd.
      2: { rewrite map_map. reflexivity. }
      apply NoDup_map_inv in Hd. exact Hd. }
    unfold lentries in Hd'. rewrite W1 in Hd'. rewrite (zr_app 0 j) in Hd' by lia. rewrite (zr_cons j) in Hd' by lia.
    rewrite flat_map_app in Hd'. cbn [flat_map] in Hd'. rewrite !map_app in Hd'.
    apply nodup_app_r in Hd'. apply nodup_app_l in Hd'.
    unfold line_of in Hd'. rewrite !map_map in Hd'. cbn [fst snd] in Hd'.
    rewrite (zr_app _ p) in Hd' by lia. rewrite (zr_cons p) in Hd' by lia. rewrite map_app in Hd'. cbn [map] in Hd'.
    apply nodup_app_r in Hd'. inversion Hd' as [|x l Hn _]. apply Hn. rewrite E.
    apply in_map_iff. exists q. split; [reflexivity|]. apply zr_in. lia.
  Qed.

  (* the line-by-line list is strictly sorted by line and index *)
  Definition lexlt (a b : item) : Prop :=
    iline a < iline b \/ iline a = iline b /\ snd (fst a) < snd (fst b).

  Lemma lentries_sorted : forall (A : sparse T), sp_nptr A = nlines A -> strictly_ascending A ->
    StronglySorted lexlt (lentries A).
  Proof.
    intros A W1 Hs. unfold lentries. rewrite W1.
    destruct (Z_le_gt_dec (nlines A) 0) as [H|H]. { rewrite zr_nil by lia. constructor. }
    assert (X : forall k : nat, Z.of_nat k <= nlines A -> StronglySorted lexlt
      (flat_map (fun j => map (fun e => (j, fst e, snd e)) (line_of A j)) (zr 0 (Z.of_nat k))) /\
      forall x, In x (flat_map (fun j => map (fun e => (j, fst e, snd e)) (line_of A j)) (zr 0 (Z.of_nat k))) -> iline x < Z.of_nat k).
    { induction k as [|k IH]; intros Hk.
      - rewrite zr_nil by lia. split; [constructor|intros x []].
      - destruct IH as [IH1 IH2]; [lia|]. replace (Z.of_nat (S k)) with (Z.of_nat k + 1) by lia.
        rewrite zr_snoc by lia. rewrite flat_map_snoc.
        assert (C : forall x, In x (map (fun e => (Z.of_nat k, fst e, snd e)) (line_of A (Z.of_nat k))) -> iline x = Z.of_nat k).
        { intros x Hx. apply in_map_iff in Hx as (e & <- & _). reflexivity. }
        split.
        + apply ss_app_intro; auto.
          * unfold line_of. rewrite map_map. apply ss_map. apply ss_zr. intros p q H1 H2 H3. right.
            unfold iline. cbn [fst snd]. split; [lia|]. apply (Hs (Z.of_nat k) p q); lia.
          * intros x y Hx Hy. apply IH2 in Hx. apply C in Hy. left. lia.
        + intros x Hx. apply in_app_iff in Hx as [Hx|Hx]; [apply IH2 in Hx; lia|apply C in Hx; lia]. }
    specialize (X (Z.to_nat (nlines A)) ltac:(lia)). rewrite Z2Nat.id in X by lia. apply X.
  Qed.

  Lemma lentries_unique : forall (A B : sparse T), valid A -> valid B -> sp_kind A <> COO -> sp_kind A = sp_kind B ->
    strictly_ascending A -> strictly_ascending B -> Permutation (entries A) (entries B) -> entries A = entries B.
  Proof.
    intros A B VA VB Hk Ek SA SB P.
    assert (WA : sp_nptr A = nlines A) by (unfold valid in VA; destruct (sp_kind A); try congruence; apply VA).
    assert (WB : sp_nptr B = nlines B) by (unfold valid in VB; rewrite <- Ek in VB; destruct (sp_kind A); try congruence; apply VB).
    rewrite !entries_lentries in * by congruence. rewrite <- Ek in *.
    assert (P' : Permutation (lentries A) (lentries B)).
    { unfold oriented in P. destruct (sp_kind A); auto. apply (Permutation_map swap_pos) in P. rewrite !map_swap_swap in P. exact P. }
    f_equal. apply (ss_unique _ lexlt); auto.
    - intros a [H|[_ H]]; lia.
    - unfold lexlt. intros a b c H1 H2. lia.
    - apply lentries_sorted; auto.
    - apply lentries_sorted; auto.
  Qed.
End Struct.
