(* PEigsort.v: lemmas on the sorting of eigenvalues with their vectors. *)
From Coq Require Import ZArith Lia Bool ZifyBool List.
From Verif Require Import Mem MView SpecView PView PSub Hoare MFlags MCopy PUpd PCopy MNum SpecNum SpecPivot MPivot PPivot MSort PSort PQsort.
Import ListNotations.
Local Open Scope Z_scope.
Local Open Scope prog_scope.

(* rows (r = true) or columns are renamed by f *)
Definition kmap (r : bool) (f : Z -> Z) (i j : Z) : Z * Z := if r then (f i, j) else (i, f j).
Definition vkind (x : view) : bool := negb (rows x =? 1).
Definition nlines (p : view * bool) : Z := if snd p then rows (fst p) else cols (fst p).

Section E.
  Context {T : Type} (K : num T).
  Implicit Types (m : Z -> T) (L : Z -> bool).

  Definition kelts (p : view * bool) (f : Z -> Z) m m' : Prop :=
    forall i j, pos (fst p) i j -> elt m' (fst p) i j = elt m (fst p) (fst (kmap (snd p) f i j)) (snd (kmap (snd p) f i j)).

  Lemma vmoved_moved : forall x f m m', isvec x -> wf x -> vmoved x f m m' -> moved x (kmap (vkind x) f) m m'.
  Proof.
    intros x f m m' V (W1 & W2 & W3) (H1 & H2). split; auto. intros i j Hp. unfold pos in Hp. unfold kmap, vkind.
    destruct (rows x =? 1) eqn:E; cbn [negb fst snd].
    - specialize (H1 j ltac:(unfold vlen; nia)). unfold velt, vec_pos in H1. rewrite E in H1. cbn [fst snd] in H1.
      replace i with 0 by lia. exact H1.
    - destruct V as [V|V]; [lia|]. specialize (H1 i ltac:(unfold vlen; nia)). unfold velt, vec_pos in H1. rewrite E in H1.
      cbn [fst snd] in H1. replace j with 0 by lia. exact H1.
  Qed.

  Lemma swap_columns_wp : forall L A k l m (Q : unit -> (Z -> T) -> Prop), wf A -> allocated L A -> 0 < rows A ->
    0 <= k < cols A -> 0 <= l < cols A -> k <> l ->
    (forall m', moved A (kmap false (transp k l)) m m' -> Q tt m') ->
    wp (armas_swap (armas_column A l) (armas_column A k) ;; ret tt) L m Q.
  Proof.
    intros L A k l m Q WA LA HR Hk Hl Nk HQ. wbind.
    assert (X : forall c, 0 <= c < cols A -> armas_column A c = seg A 0 c true (rows A)).
    { intros c Hc. unfold armas_column. unfold armas_size. replace (rows A * cols A =? 0) with false by nia.
      replace (c <? 0) with false by lia. cbv zeta. unfold seg, armas_submatrix_unsafe, armas_make. f_equal. lia. }
    rewrite !X by auto. pose proof WA as (W1 & W2 & W3).
    apply swap_segs; auto; try lia.
    { unfold inseg. intros i j. lia. }
    intros m' Hm. apply wp_ret. apply HQ. eapply moved_ext; [|exact Hm].
    intros i j Hp. cbv beta. unfold inseg, segp, segk, kmap, transp, pos in *.
    split_ifs; f_equal; lia.
  Qed.

  Lemma swap_rows2_wp : forall L A k l m (Q : unit -> (Z -> T) -> Prop), wf A -> allocated L A -> 0 < cols A ->
    0 <= k < rows A -> 0 <= l < rows A -> k <> l ->
    (forall m', moved A (kmap true (transp k l)) m m' -> Q tt m') ->
    wp (armas_swap (armas_row A l) (armas_row A k) ;; ret tt) L m Q.
  Proof.
    intros L A k l m Q WA LA HR Hk Hl Nk HQ. wbind.
    assert (X : forall c, 0 <= c < rows A -> armas_row A c = seg A c 0 false (cols A)).
    { intros c Hc. unfold armas_row. unfold armas_size. replace (rows A * cols A =? 0) with false by nia.
      replace (c <? 0) with false by lia. cbv zeta. unfold seg, armas_submatrix_unsafe, armas_make. f_equal; lia. }
    rewrite !X by auto. pose proof WA as (W1 & W2 & W3).
    apply swap_segs; auto; try lia.
    { unfold inseg. intros i j. lia. }
    intros m' Hm. apply wp_ret. apply HQ. eapply moved_ext; [|exact Hm].
    intros i j Hp. cbv beta. unfold inseg, segp, segk, kmap, transp, pos in *.
    split_ifs; f_equal; lia.
  Qed.

  (* actions on disjoint parts, one after the other *)
  Definition act_ok L (f : Z -> Z) (a : M T unit) (o : option (view * bool)) : Prop :=
    match o with
    | Some p => forall m (Q : unit -> (Z -> T) -> Prop),
        (forall m', moved (fst p) (kmap (snd p) f) m m' -> Q tt m') -> wp a L m Q
    | None => a = ret tt
    end.

  Definition oviews (l : list (option (view * bool))) : list view :=
    flat_map (fun o => match o with Some p => [fst p] | None => [] end) l.

  Definition all_kelts (l : list (option (view * bool))) f m m' : Prop :=
    forall p, In (Some p) l -> kelts p f m m'.
  Definition all_frame (l : list (option (view * bool))) m m' : Prop :=
    forall a, (forall A, In A (oviews l) -> ~ cell A a) -> m' a = m a.

  Lemma in_oviews : forall l p, In (Some p) l -> In (fst p) (oviews l).
  Proof. intros l p H. unfold oviews. apply in_flat_map. exists (Some p). split; auto. left; auto. Qed.

  Lemma elt_frame : forall l (p : view * bool) m m', Forall (disjoint (fst p)) (oviews l) ->
    all_frame l m m' -> forall i j, pos (fst p) i j -> elt m' (fst p) i j = elt m (fst p) i j.
  Proof.
    intros l p m m' D F i j Hp. unfold elt. apply F. intros A HA Hc.
    rewrite Forall_forall in D. apply (D A HA (elems (fst p) + j * step (fst p) + i)); auto.
    exists i, j. auto.
  Qed.

  (* range of the renaming stays inside every part *)
  Definition kin (p : view * bool) (f : Z -> Z) : Prop :=
    forall i, 0 <= i < nlines p -> 0 <= f i < nlines p.

  Lemma kmap_pos : forall p f i j, kin p f -> pos (fst p) i j ->
    pos (fst p) (fst (kmap (snd p) f i j)) (snd (kmap (snd p) f i j)).
  Proof.
    intros [A r] f i j H Hp. unfold kin, nlines, pos, kmap in *. cbn [fst snd] in *. destruct r; cbn [fst snd].
    - specialize (H i). lia.
    - specialize (H j). lia.
  Qed.

  Lemma act_cons : forall L f a o (c : M T unit) l m (Q : unit -> (Z -> T) -> Prop),
    pairwise_disjoint (oviews (o :: l)) -> act_ok L f a o ->
    (forall p, In (Some p) (o :: l) -> kin p f) ->
    (forall m1 (Q' : unit -> (Z -> T) -> Prop), (forall m2, all_kelts l f m1 m2 -> all_frame l m1 m2 -> Q' tt m2) -> wp c L m1 Q') ->
    (forall m2, all_kelts (o :: l) f m m2 -> all_frame (o :: l) m m2 -> Q tt m2) ->
    wp (a ;; c) L m Q.
  Proof.
    intros L f a o c l m Q PD Ha Hk Hc HQ. wbind. destruct o as [p|].
    - apply Ha. intros m1 (M1 & O1). apply Hc. intros m2 K2 F2.
      destruct PD as (PD1 & PD2). apply HQ.
      + intros q [Eq|Hq].
        * injection Eq as <-. intros i j Hp. rewrite (elt_frame l p m1 m2) by auto. apply M1; auto.
        * intros i j Hp. rewrite (K2 q Hq i j Hp).
          pose proof (kmap_pos q f i j (Hk q (or_intror Hq)) Hp) as Hp'.
          unfold elt. apply O1. intros Hcell. rewrite Forall_forall in PD1.
          apply (PD1 (fst q) (in_oviews l q Hq) _ Hcell).
          eexists; eexists; split; [exact Hp'|reflexivity].
      + intros b Hb. rewrite F2, O1; auto.
        * apply Hb. left; auto.
        * intros A HA. apply Hb. right; auto.
    - cbn [act_ok] in Ha. subst a. apply wp_ret. apply Hc. intros m2 K2 F2. apply HQ.
      + intros q [Eq|Hq]; [discriminate|]. apply K2; auto.
      + intros b Hb. apply F2. intros A HA. apply Hb. exact HA.
  Qed.

  Lemma act_last : forall L f a o m (Q : unit -> (Z -> T) -> Prop), act_ok L f a o ->
    (forall m2, all_kelts [o] f m m2 -> all_frame [o] m m2 -> Q tt m2) -> wp a L m Q.
  Proof.
    intros L f a o m Q Ha HQ. destruct o as [p|].
    - apply Ha. intros m' (M1 & O1). apply HQ.
      + intros q [Eq|[]]. injection Eq as <-. exact M1.
      + intros b Hb. apply O1, Hb. left; auto.
    - cbn [act_ok] in Ha. subst a. apply wp_ret. apply HQ.
      + intros q [Eq|[]]; discriminate.
      + intros b Hb; auto.
  Qed.

  Lemma all_kelts_trans : forall l f g m m1 m2, (forall p, In (Some p) l -> kin p g) ->
    all_kelts l f m m1 -> all_kelts l g m1 m2 -> all_kelts l (fun i => f (g i)) m m2.
  Proof.
    intros l f g m m1 m2 Hk H1 H2 p Hp i j Hij.
    rewrite (H2 p Hp i j Hij). rewrite (H1 p Hp) by (apply kmap_pos; auto).
    unfold kmap. destruct (snd p); reflexivity.
  Qed.

  Lemma all_frame_trans : forall l m m1 m2, all_frame l m m1 -> all_frame l m1 m2 -> all_frame l m m2.
  Proof. intros l m m1 m2 H1 H2 a Ha. rewrite H2, H1; auto. Qed.

  (* ---- index of the extremal element ---- *)
  Context (HO : ltb_ok K).

  Lemma vec_minmax_wp : forall L x m (updown : Z) (Q : Z -> (Z -> T) -> Prop), isvec x -> wf x -> allocated L x ->
    0 < vlen x -> updown <> 0 ->
    (forall r, 0 <= r < vlen x -> (forall q, 0 <= q < vlen x ->
       lt K (updown >? 0) (velt m x q) (velt m x r) = false) -> Q r m) ->
    wp (vec_minmax K x (- updown)) L m Q.
  Proof.
    intros L x m updown Q V W A Hn Hu HQ. unfold vec_minmax. change (armas_size x) with (vlen x).
    assert (Ad : forall k, elems x + k * (if rows x =? 1 then step x else 1) = vad x k).
    { intros k. rewrite <- set_at_addr. destruct (rows x =? 1); lia. }
    wbind. apply wp_rd. { pose proof (Ad 0) as E. replace (elems x + _) with (elems x) in E by lia. rewrite E.
      apply A, vad_cell; auto. unfold vdom; lia. }
    wbind. apply wp_for1_acc with (I := fun k s m' => m' = m /\ fst s = velt m x (snd s) /\ 0 <= snd s < vlen x /\
       (forall q, 0 <= q < k -> lt K (updown >? 0) (velt m x q) (velt m x (snd s)) = false)).
    - split; [auto|]. cbn [fst snd]. split.
      { rewrite velt_vad. rewrite <- Ad. f_equal. lia. }
      split; [lia|]. intros q Hq. replace q with 0 by lia. apply lt_irr; auto.
    - intros k [v ix] m' Hk (-> & H1 & H2 & H3). cbn [fst snd] in *. wbind. rewrite Ad.
      apply wp_rd. { apply A, vad_cell; auto. unfold vdom; lia. }
      rewrite <- velt_vad. apply wp_ret. split; [auto|].
      assert (X : (if - updown >? 0 then ltb K v (velt m x k) else ltb K (velt m x k) v)
         = lt K (updown >? 0) (velt m x k) v).
      { unfold lt. destruct (updown >? 0) eqn:E1; destruct (- updown >? 0) eqn:E2; auto; lia. }
      rewrite X. destruct (lt K (updown >? 0) (velt m x k) v) eqn:E; cbn [fst snd].
      + split; [auto|]. split; [lia|]. intros q Hq. destruct (Z.eq_dec q k) as [->|]; [apply lt_irr; auto|].
        rewrite H1 in E. apply le_trans with (b := velt m x ix); auto; [apply lt_asym; auto|]. apply H3. lia.
      + split; [auto|]. split; [lia|]. intros q Hq. destruct (Z.eq_dec q k) as [->|]; [rewrite <- H1; auto|]. apply H3; lia.
    - intros [v ix] m' (-> & H1 & H2 & H3). cbn [fst snd] in *. apply wp_ret. apply HQ; auto. intros q Hq. apply H3. lia.
  Qed.
End E.
