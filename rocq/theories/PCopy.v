(* PCopy.v: copying and swapping. *)
From Coq Require Import ZArith Lia Bool ZifyBool.
From Verif Require Import Mem MView SpecView PView PSub Hoare MFlags MCopy PUpd.
Local Open Scope Z_scope.
Local Open Scope prog_scope.

(* the last write of a block: close the goal by changing the index set *)
Ltac upd_done := cbv beta; eapply upd_ext; [|eassumption]; cbv beta; intros; lia.

Ltac uext H := eapply upd_ext; [|exact H]; unfold mdom, pos, vdom; cbv beta; intros; cbn [fst snd]; lia.

Ltac dbool_lia := dbool; lia.

Lemma in_dec_vec : forall x a, isvec x -> wf x ->
  (exists k, vdom x k /\ a = vad x k) \/ ~ cell x a.
Proof.
  intros x a Hv Hw.
  assert (Hd : cell x a \/ ~ cell x a).
  { unfold vdom. assert (Hr : 0 <= rows x /\ 0 <= cols x) by (destruct Hw as (?&?&?); auto).
    destruct Hw as (H1 & H2 & H3).
    (* the row is a - elems modulo step, if in range *)
    destruct (Z_le_dec (rows x) 0) as [Hz|Hz]; [right; intros (i & j & (Hi & Hj) & _); lia|].
    set (j := (a - elems x) / step x). set (i := (a - elems x) mod step x).
    assert (E : a = elems x + j * step x + i).
    { unfold i, j. pose proof (Z.div_mod (a - elems x) (step x)). lia. }
    assert (Hi : 0 <= i < step x) by (apply Z.mod_pos_bound; lia).
    destruct (Z_lt_dec i (rows x)) as [Hi'|Hi'];
      [destruct (Z_le_dec 0 j) as [Hj|Hj]; [destruct (Z_lt_dec j (cols x)) as [Hj'|Hj']|]|].
    - left. exists i, j. split; auto. unfold pos; lia.
    - right. intros (i' & j' & (P1 & P2) & E').
      assert (j' = j) by (unfold j; apply Z.div_unique with i'; lia). lia.
    - right. intros (i' & j' & (P1 & P2) & E').
      assert (j' = j) by (unfold j; apply Z.div_unique with i'; lia). lia.
    - right. intros (i' & j' & (P1 & P2) & E').
      assert (i' = i) by (unfold i; apply Z.mod_unique with j'; lia). lia. }
  destruct Hd as [Hd|Hd]; auto. left. apply vcell_inv; auto.
Qed.

Section P.
  Context {T : Type}.
  Implicit Types (m : Z -> T) (L : Z -> bool).

  Section Vec.
    Variables (L : Z -> bool) (X Y : view).
    Hypotheses (VX : isvec X) (VY : isvec Y) (WX : wf X) (WY : wf Y)
               (AX : allocated L X) (AY : allocated L Y) (DXY : disjoint X Y).

    Lemma vector_copy_wp : forall N m0 (Q : unit -> (Z -> T) -> Prop),
      0 <= N <= vlen X -> N <= vlen Y ->
      (forall m', upd m0 (vad X) (fun k => m0 (vad Y k)) (fun k => 0 <= k < N) m' -> Q tt m') ->
      wp (vector_copy X Y N) L m0 Q.
    Proof.
      intros N m0 Q HN HN' HQ. unfold vector_copy.
      apply wp_unroll4 with
        (I := fun n m => upd m0 (vad X) (fun k => m0 (vad Y k)) (fun k => 0 <= k < n) m);
        auto; try lia.
      - apply upd_nil. intros; lia.
      - intros i m Hi Hi3 Hu.
        assert (HY : forall k, 0 <= k < N -> m (vad Y k) = m0 (vad Y k)).
        { intros k Hk. eapply vupd_disj; eauto; unfold vdom; try lia.
          apply vad_cell; auto. unfold vdom; lia. }
        do 4 (wbind; eapply wp_rd_v with (x := Y); eauto using vad_eq; [unfold vdom; lia|]).
        do 3 (wbind; eapply wp_wr_v; eauto using vad_eq;
          [unfold vdom; cbv beta; intros; lia | unfold vdom; lia | cbv beta; apply HY; lia |];
          clear Hu; intros ? Hu).
        eapply wp_wr_v; eauto using vad_eq;
          [unfold vdom; cbv beta; intros; lia | unfold vdom; lia | cbv beta; apply HY; lia |].
        clear Hu; intros ? Hu. upd_done.
      - intros i m Hi Hu. unfold cp1.
        wbind; eapply wp_rd_v with (x := Y); eauto using vad_eq; [unfold vdom; lia|].
        eapply wp_wr_v; eauto using vad_eq;
          [unfold vdom; cbv beta; intros; lia | unfold vdom; lia | |].
        { cbv beta. eapply vupd_disj; eauto; unfold vdom; try lia.
          apply vad_cell; auto. unfold vdom; lia. }
        clear Hu; intros ? Hu. upd_done.
    Qed.
  End Vec.

  Section Mat.
    Variables (L : Z -> bool) (A B : view).
    Hypotheses (WA : wf A) (WB : wf B)
               (AA : allocated L A) (AB : allocated L B) (DAB : disjoint A B).

    Lemma copy_plain_wp : forall m0 (Q : unit -> (Z -> T) -> Prop),
      rows A = rows B -> cols A = cols B ->
      (forall m', upd m0 (mad A) (fun p => m0 (mad B p)) (mdom A) m' -> Q tt m') ->
      wp (copy_plain_mcpy1 (elems A) (step A) (elems B) (step B) (rows B) (cols B)) L m0 Q.
    Proof.
      intros m0 Q Hr Hc HQ. destruct WA as (H1 & H2 & H3). unfold copy_plain_mcpy1.
      apply wp_for1 with (I := fun j m => upd m0 (mad A) (fun p => m0 (mad B p))
           (fun p => mdom A p /\ snd p < j) m).
      - apply upd_nil. unfold mdom, pos; cbv beta; intros; lia.
      - intros j m Hj Hu.
        apply wp_for1 with (I := fun i m => upd m0 (mad A) (fun p => m0 (mad B p))
           (fun p => mdom A p /\ (snd p < j \/ (snd p = j /\ fst p < i))) m).
        + uext Hu.
        + clear m Hu. intros i m Hi Hu. unfold cp1. wbind.
          eapply wp_rd_m with (A := B) (i := i) (j := j); auto; [unfold pos; lia|].
          eapply wp_wr_m with (i := i) (j := j); eauto; [intros q Hq; apply Hq|unfold pos; lia| |].
          { cbv beta. eapply mupd_disj; eauto; [intros q Hq; apply Hq|]. apply mad_cell. unfold pos; lia. }
          clear Hu; intros ? Hu. cbv beta. uext Hu.
        + intros m' Hu'. uext Hu'.
      - intros m' Hu. apply HQ. uext Hu.
    Qed.

    (* one element of the transposed copy *)
    Lemma cpt_wp : forall m0 S m i j dp sp (Q : unit -> (Z -> T) -> Prop),
      cols A = rows B -> rows A = cols B ->
      upd m0 (mad A) (fun p => m0 (mad B (snd p, fst p))) S m ->
      (forall q, S q -> mdom A q) ->
      pos B i j -> dp = mad A (j, i) -> sp = mad B (i, j) ->
      (forall m', upd m0 (mad A) (fun p => m0 (mad B (snd p, fst p)))
          (fun q => S q \/ (fst q = j /\ snd q = i)) m' -> Q tt m') ->
      wp (cp1 dp sp) L m Q.
    Proof.
      intros m0 S m i j dp sp Q Hc Hr Hu HS Hp -> -> HQ. unfold cp1. wbind.
      eapply wp_rd_m with (A := B) (i := i) (j := j); auto.
      eapply wp_wr_m with (i := j) (j := i); eauto.
      - unfold pos in *; lia.
      - cbn. eapply mupd_disj; eauto. apply mad_cell; auto.
    Qed.

    (* copy_trans1x4 of the columns of B from column j0 on *)
    Lemma copy_trans1x4_wp : forall j0 m0 m (Q : unit -> (Z -> T) -> Prop),
      cols A = rows B -> rows A = cols B -> 0 <= j0 <= cols B ->
      upd m0 (mad A) (fun p => m0 (mad B (snd p, fst p))) (fun p => mdom A p /\ fst p < j0) m ->
      (forall m', upd m0 (mad A) (fun p => m0 (mad B (snd p, fst p))) (mdom A) m' -> Q tt m') ->
      wp (copy_trans1x4 (elems A + j0) (step A) (elems B + j0 * step B) (step B)
            (rows B) (cols B - j0)) L m Q.
    Proof.
      intros j0 m0 m Q Hc Hr Hj0 Hu HQ. destruct WA as (H1 & H2 & H3).
      destruct WB as (H1' & H2' & H3'). unfold copy_trans1x4.
      apply wp_for1 with (I := fun j m => upd m0 (mad A) (fun p => m0 (mad B (snd p, fst p)))
           (fun p => mdom A p /\ fst p < j0 + j) m).
      - uext Hu.
      - clear m Hu. intros j m Hj Hu.
        apply wp_unroll4 with (I := fun i m => upd m0 (mad A) (fun p => m0 (mad B (snd p, fst p)))
           (fun p => mdom A p /\ (fst p < j0 + j \/ (fst p = j0 + j /\ snd p < i))) m); auto.
        + uext Hu.
        + clear m Hu. intros i m Hi Hi3 Hu.
          wbind. eapply cpt_wp with (i := i + 0) (j := j0 + j);
            [auto|auto|exact Hu|intros q Hq; apply Hq|unfold pos; lia|unfold mad; cbn [fst snd]; lia|unfold mad; cbn [fst snd]; lia|].
          clear m Hu; intros m Hu.
          wbind. eapply cpt_wp with (i := i + 1) (j := j0 + j);
            [auto|auto|exact Hu|unfold mdom, pos; cbv beta; intros; lia|unfold pos; lia|unfold mad; cbn [fst snd]; lia|unfold mad; cbn [fst snd]; lia|].
          clear m Hu; intros m Hu.
          wbind. eapply cpt_wp with (i := i + 2) (j := j0 + j);
            [auto|auto|exact Hu|unfold mdom, pos; cbv beta; intros; lia|unfold pos; lia|unfold mad; cbn [fst snd]; lia|unfold mad; cbn [fst snd]; lia|].
          clear m Hu; intros m Hu.
          eapply cpt_wp with (i := i + 3) (j := j0 + j);
            [auto|auto|exact Hu|unfold mdom, pos; cbv beta; intros; lia|unfold pos; lia|unfold mad; cbn [fst snd]; lia|unfold mad; cbn [fst snd]; lia|].
          clear m Hu; intros m Hu.
          uext Hu.
        + clear m Hu. intros i m Hi Hu.
          eapply cpt_wp with (i := i) (j := j0 + j);
            [auto|auto|exact Hu|intros q Hq; apply Hq|unfold pos; lia|unfold mad; cbn [fst snd]; lia|unfold mad; cbn [fst snd]; lia|].
          clear m Hu; intros m Hu.
          uext Hu.
        + intros m' Hu'. uext Hu'.
      - intros m' Hu'. apply HQ. uext Hu'.
    Qed.

    Lemma copy_trans4x1_wp : forall m0 (Q : unit -> (Z -> T) -> Prop),
      cols A = rows B -> rows A = cols B ->
      (forall m', upd m0 (mad A) (fun p => m0 (mad B (snd p, fst p))) (mdom A) m' -> Q tt m') ->
      wp (copy_trans4x1 (elems A) (step A) (elems B) (step B) (rows B) (cols B)) L m0 Q.
    Proof.
      intros m0 Q Hc Hr HQ. destruct WA as (H1 & H2 & H3).
      destruct WB as (H1' & H2' & H3'). unfold copy_trans4x1. wbind.
      destruct (tail_cases (cols B) H2') as (Ht1 & Ht2).
      apply wp_for_up with (I := fun j m => upd m0 (mad A) (fun p => m0 (mad B (snd p, fst p)))
           (fun p => mdom A p /\ fst p < j) m); try lia.
      - apply upd_nil. unfold mdom, pos; cbv beta; intros; lia.
      - intros j m k Hk Ek Hj Hu.
        apply wp_for1 with (I := fun i m => upd m0 (mad A) (fun p => m0 (mad B (snd p, fst p)))
           (fun p => mdom A p /\ (fst p < j \/ (fst p < j + 4 /\ snd p < i))) m).
        + uext Hu.
        + clear m Hu. intros i m Hi Hu.
          wbind. eapply cpt_wp with (i := i) (j := j + 0);
            [auto|auto|exact Hu|intros q Hq; apply Hq|unfold pos; lia|unfold mad; cbn [fst snd]; lia|unfold mad; cbn [fst snd]; lia|].
          clear m Hu; intros m Hu.
          wbind. eapply cpt_wp with (i := i) (j := j + 1);
            [auto|auto|exact Hu|unfold mdom, pos; cbv beta; intros; lia|unfold pos; lia|unfold mad; cbn [fst snd]; lia|unfold mad; cbn [fst snd]; lia|].
          clear m Hu; intros m Hu.
          wbind. eapply cpt_wp with (i := i) (j := j + 2);
            [auto|auto|exact Hu|unfold mdom, pos; cbv beta; intros; lia|unfold pos; lia|unfold mad; cbn [fst snd]; lia|unfold mad; cbn [fst snd]; lia|].
          clear m Hu; intros m Hu.
          eapply cpt_wp with (i := i) (j := j + 3);
            [auto|auto|exact Hu|unfold mdom, pos; cbv beta; intros; lia|unfold pos; lia|unfold mad; cbn [fst snd]; lia|unfold mad; cbn [fst snd]; lia|].
          clear m Hu; intros m Hu.
          uext Hu.
        + intros m' Hu'. uext Hu'.
      - intros m Hu. apply wp_when.
        + intros _. eapply copy_trans1x4_wp; eauto.
        + intros E. apply HQ. uext Hu.
    Qed.
  End Mat.

  (* swap: the index (true,k) is element k of X, (false,k) element k of Y *)
  Definition sad (X Y : view) (p : bool * Z) : Z := if fst p then vad X (snd p) else vad Y (snd p).

  Section Swap.
    Variables (L : Z -> bool) (X Y : view).
    Hypotheses (VX : isvec X) (VY : isvec Y) (WX : wf X) (WY : wf Y)
               (AX : allocated L X) (AY : allocated L Y) (DXY : disjoint X Y)
               (Hlen : vlen X = vlen Y).

    Let U (p : bool * Z) : Prop := vdom X (snd p).

    Lemma sad_inj : inj_on U (sad X Y).
    Proof.
      intros [b k] [b' k'] Hp Hq E. unfold U, sad in *; cbn in *.
      assert (vdom Y k /\ vdom Y k') by (unfold vdom in *; lia).
      destruct b, b'.
      - f_equal. apply (vad_inj X); auto.
      - exfalso. apply (DXY (vad X k)); [|rewrite E]; apply vad_cell; tauto.
      - exfalso. apply (DXY (vad X k')); [|rewrite <- E]; apply vad_cell; tauto.
      - f_equal. apply (vad_inj Y); tauto.
    Qed.

    Let F m0 (p : bool * Z) : T := if fst p then m0 (vad Y (snd p)) else m0 (vad X (snd p)).

    Lemma sad_cell : forall p, U p -> L (sad X Y p) = true.
    Proof.
      intros [[] k] Hp; unfold U, sad in *; cbn in *.
      - apply AX, vad_cell; auto.
      - apply AY, vad_cell; auto. unfold vdom in *; lia.
    Qed.

    Lemma wp_wr_s : forall m0 S m b k a v (Q : unit -> (Z -> T) -> Prop),
      upd m0 (sad X Y) (F m0) S m -> (forall q, S q -> U q) -> vdom X k ->
      a = sad X Y (b, k) -> v = F m0 (b, k) ->
      (forall m', upd m0 (sad X Y) (F m0) (fun q => S q \/ (fst q = b /\ snd q = k)) m' -> Q tt m') ->
      wp (wr a v) L m Q.
    Proof.
      intros m0 S m b k a v Q Hu HS Hk -> -> HQ.
      eapply wp_wr_gen with (p := (b, k)) (G := F m0) (U := U); eauto using sad_inj.
      - apply sad_cell; auto.
      - intros m' H'. apply HQ. eapply upd_ext; [|exact H']. intros [x y]; cbn.
        split; intros [?|E]; auto; right; [injection E as -> ->|destruct E as (-> & ->)]; auto.
    Qed.

    Lemma swap_old : forall m0 S m b k,
      upd m0 (sad X Y) (F m0) S m -> (forall q, S q -> U q) -> vdom X k -> ~ S (b, k) ->
      m (sad X Y (b, k)) = m0 (sad X Y (b, k)).
    Proof.
      intros m0 S m b k (_ & H) HS Hk Hn. apply H. intros q Hq E.
      apply sad_inj in E; auto. subst; auto.
    Qed.

    Lemma vec_swap_wp : forall m0 (Q : unit -> (Z -> T) -> Prop),
      (forall m', upd m0 (sad X Y) (F m0) U m' -> Q tt m') ->
      wp (vec_swap X Y (vlen X)) L m0 Q.
    Proof.
      intros m0 Q HQ. unfold vec_swap.
      assert (H0 : 0 <= vlen X) by (destruct WX as (? & ? & ?); unfold vlen; nia).
      apply wp_unroll4 with
        (I := fun n m => upd m0 (sad X Y) (F m0) (fun p => 0 <= snd p < n /\ snd p < vlen X) m); auto.
      - apply upd_nil. intros; lia.
      - intros i m Hi Hi3 Hu.
        assert (HY : forall k, i <= k < vlen X -> m (vad Y k) = m0 (vad Y k)).
        { intros k Hk. apply (swap_old m0 _ m false k Hu); unfold U, vdom; cbn [fst snd]; intros; lia. }
        assert (HX : forall k, i <= k < vlen X -> m (vad X k) = m0 (vad X k)).
        { intros k Hk. apply (swap_old m0 _ m true k Hu); unfold U, vdom; cbn [fst snd]; intros; lia. }
        do 4 (wbind; eapply wp_rd_v with (x := Y); eauto using vad_eq; [unfold vdom; lia|]).
        do 4 (wbind; eapply wp_rd_v with (x := X); eauto using vad_eq; [unfold vdom; lia|]).
        wbind. eapply wp_wr_s with (b := true) (k := i + 0);
          [exact Hu|unfold U, vdom; cbn [fst snd]; intros; lia|unfold vdom; lia|apply vad_eq|apply HY; lia|clear Hu; intros ? Hu].
        wbind. eapply wp_wr_s with (b := true) (k := i + 1);
          [exact Hu|unfold U, vdom; cbn [fst snd]; intros; lia|unfold vdom; lia|apply vad_eq|apply HY; lia|clear Hu; intros ? Hu].
        wbind. eapply wp_wr_s with (b := true) (k := i + 2);
          [exact Hu|unfold U, vdom; cbn [fst snd]; intros; lia|unfold vdom; lia|apply vad_eq|apply HY; lia|clear Hu; intros ? Hu].
        wbind. eapply wp_wr_s with (b := true) (k := i + 3);
          [exact Hu|unfold U, vdom; cbn [fst snd]; intros; lia|unfold vdom; lia|apply vad_eq|apply HY; lia|clear Hu; intros ? Hu].
        wbind. eapply wp_wr_s with (b := false) (k := i + 0);
          [exact Hu|unfold U, vdom; cbn [fst snd]; intros; lia|unfold vdom; lia|apply vad_eq|apply HX; lia|clear Hu; intros ? Hu].
        wbind. eapply wp_wr_s with (b := false) (k := i + 1);
          [exact Hu|unfold U, vdom; cbn [fst snd]; intros; lia|unfold vdom; lia|apply vad_eq|apply HX; lia|clear Hu; intros ? Hu].
        wbind. eapply wp_wr_s with (b := false) (k := i + 2);
          [exact Hu|unfold U, vdom; cbn [fst snd]; intros; lia|unfold vdom; lia|apply vad_eq|apply HX; lia|clear Hu; intros ? Hu].
        eapply wp_wr_s with (b := false) (k := i + 3);
          [exact Hu|unfold U, vdom; cbn [fst snd]; intros; lia|unfold vdom; lia|apply vad_eq|apply HX; lia|clear Hu; intros ? Hu].
        cbv beta. eapply upd_ext; [|exact Hu]. intros [[] k]; cbn [fst snd]; split; intros; try lia.
        all: assert (0 <= k < i \/ k = i + 0 \/ k = i + 1 \/ k = i + 2 \/ k = i + 3) by lia; intuition.
      - intros i m Hi Hu.
        assert (HY : m (vad Y i) = m0 (vad Y i)).
        { apply (swap_old m0 _ m false i Hu); unfold U, vdom; cbn [fst snd]; intros; lia. }
        assert (HX : m (vad X i) = m0 (vad X i)).
        { apply (swap_old m0 _ m true i Hu); unfold U, vdom; cbn [fst snd]; intros; lia. }
        wbind; eapply wp_rd_v with (x := Y); eauto using vad_eq; [unfold vdom; lia|].
        wbind; eapply wp_rd_v with (x := X); eauto using vad_eq.
        wbind. eapply wp_wr_s with (b := false) (k := i);
          [exact Hu|unfold U, vdom; cbn [fst snd]; intros; lia|unfold vdom; lia|apply vad_eq|apply HX; lia|clear Hu; intros ? Hu].
        eapply wp_wr_s with (b := true) (k := i);
          [exact Hu|unfold U, vdom; cbn [fst snd]; intros; lia|unfold vdom; lia|apply vad_eq|apply HY; lia|clear Hu; intros ? Hu].
        cbv beta. eapply upd_ext; [|exact Hu]. intros [[] k]; cbn [fst snd]; split; intros; try lia.
        all: assert (0 <= k < i \/ k = i) by lia; intuition.
      - intros m Hu. apply HQ. unfold U. uext Hu.
    Qed.
  End Swap.

  (* ---------------------------------------------------------------- *)
  (* the exported functions *)

  Lemma has_trans : forall flags, has flags ARMAS_TRANS = (Z.land flags ARMAS_TRANS =? ARMAS_TRANS).
  Proof.
    intros flags. unfold has.
    assert (H : Z.land flags ARMAS_TRANS = 0 \/ Z.land flags ARMAS_TRANS = ARMAS_TRANS).
    { destruct (Z.testbit flags 7) eqn:E.
      - right. apply Z.bits_inj'. intros n Hn. rewrite Z.land_spec. unfold ARMAS_TRANS, ARMAS_TRANSA.
        replace 128 with (2 ^ 7) by reflexivity. rewrite Z.pow2_bits_eqb by lia.
        destruct (7 =? n) eqn:E'. assert (n = 7) as -> by lia. rewrite E; reflexivity. apply andb_false_r.
      - left. apply Z.bits_inj'. intros n Hn. rewrite Z.land_spec, Z.bits_0. unfold ARMAS_TRANS, ARMAS_TRANSA.
        replace 128 with (2 ^ 7) by reflexivity. rewrite Z.pow2_bits_eqb by lia.
        destruct (7 =? n) eqn:E'. assert (n = 7) as -> by lia. rewrite E; reflexivity. apply andb_false_r. }
    destruct H as [-> | ->]; reflexivity.
  Qed.

  Lemma shape_vec : forall A B, rows A = rows B -> cols A = cols B ->
    isvec A -> forall k, vec_pos A k = vec_pos B k.
  Proof. intros A B Hr Hc Hv k. unfold vec_pos. rewrite Hr. reflexivity. Qed.

  Lemma mcopy_spec : forall L (m : Z -> T) A B flags,
    wf A -> wf B -> allocated L A -> allocated L B -> disjoint A B ->
    rows A = rows B -> cols A = cols B -> has flags ARMAS_TRANS = false ->
    exists m', armas_mcopy A B flags L m = Some (0, m') /\
      (forall i j, pos A i j -> elt m' A i j = elt m B i j) /\ only_changes A m m'.
  Proof.
    intros L m A B flags WA WB LA LB D Hr Hc Hf.
    assert (W : wp (armas_mcopy A B flags) L m (fun r m' => r = 0 /\
      (forall i j, pos A i j -> elt m' A i j = elt m B i j) /\ only_changes A m m')).
    { unfold armas_mcopy. apply wp_if; intros E.
      - apply andb_true_iff in E as (E1 & E2). apply isvector_isvec in E1, E2.
        apply wp_if; intros E; [unfold armas_size in E; rewrite Hr, Hc in E; lia|].
        wbind. apply vector_copy_wp; auto; unfold armas_size, vlen in *; destruct WA as (?&?&?), WB as (?&?&?); try nia.
        intros m' Hu. apply wp_ret. split; auto. split.
        + intros i j Hp. assert (Hcell : cell A (mad A (i, j))) by (apply mad_cell; auto).
          apply vcell_inv in Hcell as (k & Hk & Ek); auto; [|repeat split; auto].
          rewrite !elt_mad. rewrite Ek. rewrite (upd_new _ _ _ _ _ k Hu) by (unfold vdom, vlen in Hk; auto).
          apply f_equal. unfold vad in *. unfold mad in *. cbn [fst snd] in *.
          rewrite <- (shape_vec A B) by auto.
          assert (i = fst (vec_pos A k) /\ j = snd (vec_pos A k)) as (-> & ->); auto.
          apply (pos_inj A); [repeat split; auto|auto|apply vaddr; auto; repeat split; auto|lia].
        + eapply vupd_only; eauto. repeat split; auto.
      - cbv zeta. rewrite has_trans in *. rewrite Hf.
        replace (negb ((rows A =? rows B) && (cols A =? cols B))) with false by lia.
        wbind. eapply copy_plain_wp; eauto. intros m' Hu. apply wp_ret. split; auto. split.
        + intros i j Hp. rewrite !elt_mad. apply (upd_new _ _ _ _ _ _ Hu). exact Hp.
        + eapply mupd_only; eauto. }
    destruct W as (r & m' & E & -> & H1 & H2). eauto.
  Qed.

  Lemma mcopy_trans_spec : forall L (m : Z -> T) A B flags,
    wf A -> wf B -> allocated L A -> allocated L B -> disjoint A B ->
    rows A = cols B -> cols A = rows B -> has flags ARMAS_TRANS = true ->
    exists m', armas_mcopy A B flags L m = Some (0, m') /\
      (forall i j, pos B i j -> elt m' A j i = elt m B i j) /\ only_changes A m m'.
  Proof.
    intros L m A B flags WA WB LA LB D Hr Hc Hf.
    assert (W : wp (armas_mcopy A B flags) L m (fun r m' => r = 0 /\
      (forall i j, pos B i j -> elt m' A j i = elt m B i j) /\ only_changes A m m')).
    { unfold armas_mcopy. apply wp_if; intros E.
      - apply andb_true_iff in E as (E1 & E2). apply isvector_isvec in E1, E2.
        apply wp_if; intros E; [unfold armas_size in E; rewrite Hr, Hc in E; lia|].
        wbind. apply vector_copy_wp; auto; unfold armas_size, vlen in *; destruct WA as (?&?&?), WB as (?&?&?); try nia.
        intros m' Hu. apply wp_ret. split; auto. split.
        + intros i j Hp. unfold pos in Hp.
          set (k := if rows A =? 1 then i else j).
          assert (HA : mad A (j, i) = vad A k).
          { unfold k, mad, vad, vec_pos. unfold isvec in E1. destruct (rows A =? 1) eqn:E3; cbn [fst snd];
            [lia | replace i with 0 by lia; lia]. }
          assert (HB : mad B (i, j) = vad B k).
          { unfold k, mad, vad, vec_pos. unfold isvec in E1, E2.
            destruct (rows A =? 1) eqn:E3, (rows B =? 1) eqn:E4; cbn [fst snd];
              try replace i with 0 by lia; try replace j with 0 by lia; lia. }
          rewrite !elt_mad, HA, HB. apply (upd_new _ _ _ _ _ k Hu). unfold k. unfold isvec in E1.
          destruct (rows A =? 1) eqn:E3; [replace (rows A) with 1 by lia|replace (cols A) with 1 by lia]; lia.
        + eapply vupd_only; eauto. repeat split; auto.
      - cbv zeta. rewrite has_trans in *. rewrite Hf.
        replace (negb ((rows A =? cols B) && (cols A =? rows B))) with false by lia.
        wbind. eapply copy_trans4x1_wp; eauto. intros m' Hu. apply wp_ret. split; auto. split.
        + intros i j Hp. rewrite !elt_mad. apply (upd_new _ _ _ _ _ (j, i) Hu).
          unfold mdom, pos in *; cbn [fst snd]; lia.
        + eapply mupd_only; eauto. }
    destruct W as (r & m' & E & -> & H1 & H2). eauto.
  Qed.

  Lemma mcopy_vec_spec : forall L (m : Z -> T) A B flags,
    isvec A -> isvec B -> wf A -> wf B -> allocated L A -> allocated L B -> disjoint A B ->
    vlen A = vlen B ->
    exists m', armas_mcopy A B flags L m = Some (0, m') /\
      (forall k, 0 <= k < vlen A -> velt m' A k = velt m B k) /\ only_changes A m m'.
  Proof.
    intros L m A B flags VA VB WA WB LA LB D Hl.
    assert (W : wp (armas_mcopy A B flags) L m (fun r m' => r = 0 /\
      (forall k, 0 <= k < vlen A -> velt m' A k = velt m B k) /\ only_changes A m m')).
    { unfold armas_mcopy. apply isvector_isvec in VA as E1. apply isvector_isvec in VB as E2.
      rewrite E1, E2. cbn [andb]. unfold armas_size, vlen in *. rewrite <- Hl, Z.eqb_refl. cbn [negb].
      wbind. apply vector_copy_wp; auto; unfold vlen in *; destruct WA as (?&?&?), WB as (?&?&?); try nia.
      intros m' Hu. apply wp_ret. split; auto. split.
      - intros k Hk. rewrite !velt_vad. apply (upd_new _ _ _ _ _ k Hu Hk).
      - eapply vupd_only; eauto. repeat split; auto. }
    destruct W as (r & m' & E & -> & H1 & H2). eauto.
  Qed.

  Lemma mcopy_mismatch : forall L (m : Z -> T) A B flags,
    (if armas_isvector A && armas_isvector B then vlen A <> vlen B
     else if has flags ARMAS_TRANS then rows A <> cols B \/ cols A <> rows B
     else rows A <> rows B \/ cols A <> cols B) ->
    armas_mcopy A B flags L m = Some (- ARMAS_ESIZE, m).
  Proof.
    intros L m A B flags H. unfold armas_mcopy. rewrite has_trans in *.
    unfold vlen, armas_size in *.
    destruct (armas_isvector A && armas_isvector B).
    - replace (negb (rows A * cols A =? rows B * cols B)) with true by lia. reflexivity.
    - destruct (Z.land flags ARMAS_TRANS =? ARMAS_TRANS).
      + replace (negb ((rows A =? cols B) && (cols A =? rows B))) with true by lia. reflexivity.
      + replace (negb ((rows A =? rows B) && (cols A =? cols B))) with true by lia. reflexivity.
  Qed.

  Lemma copy_spec : forall L (m : Z -> T) Y X,
    isvec Y -> isvec X -> wf Y -> wf X -> allocated L Y -> allocated L X -> disjoint Y X ->
    exists m', armas_copy Y X L m = Some (0, m') /\
      (forall k, 0 <= k < vlen X -> k < vlen Y -> velt m' Y k = velt m X k) /\
      (forall k, vlen X <= k < vlen Y -> velt m' Y k = velt m Y k) /\
      only_changes Y m m'.
  Proof.
    intros L m Y X VY VX WY WX LY LX D.
    assert (0 <= vlen X /\ 0 <= vlen Y) by (unfold vlen; destruct WY as (?&?&?), WX as (?&?&?); nia).
    assert (W : wp (armas_copy Y X) L m (fun r m' => r = 0 /\
      (forall k, 0 <= k < vlen X -> k < vlen Y -> velt m' Y k = velt m X k) /\
      (forall k, vlen X <= k < vlen Y -> velt m' Y k = velt m Y k) /\ only_changes Y m m')).
    { unfold armas_copy, armas_size. change (rows X * cols X) with (vlen X).
      change (rows Y * cols Y) with (vlen Y). apply wp_if; intros E.
      - apply wp_ret. split; [auto|split; [intros; lia|split; [auto|]]]. intros a _; reflexivity.
      - apply isvector_isvec in VX as E1. apply isvector_isvec in VY as E2. rewrite E1, E2.
        cbn [andb negb]. cbv zeta.
        replace (if vlen X <? vlen Y then vlen X else vlen Y) with (Z.min (vlen X) (vlen Y)) by dbool_lia.
        wbind. apply vector_copy_wp; auto; try lia.
        intros m' Hu. apply wp_ret. split; [auto|split; [|split]].
        + intros k Hk Hk'. rewrite !velt_vad. apply (upd_new _ _ _ _ _ k Hu). cbv beta; lia.
        + intros k Hk. rewrite !velt_vad. eapply vupd_old; eauto; unfold vdom; cbv beta; intros; lia.
        + eapply vupd_only; eauto. unfold vdom; cbv beta; intros; lia. }
    destruct W as (r & m' & E & -> & H1 & H2 & H3). exists m'; auto.
  Qed.

  Lemma swap_spec : forall L (m : Z -> T) Y X,
    isvec Y -> isvec X -> wf Y -> wf X -> allocated L Y -> allocated L X -> disjoint Y X ->
    vlen Y = vlen X ->
    exists m', armas_swap Y X L m = Some (0, m') /\
      (forall k, 0 <= k < vlen X -> velt m' Y k = velt m X k /\ velt m' X k = velt m Y k) /\
      (forall a, ~ cell Y a -> ~ cell X a -> m' a = m a).
  Proof.
    intros L m Y X VY VX WY WX LY LX D Hl.
    assert (W : wp (armas_swap Y X) L m (fun r m' => r = 0 /\
      (forall k, 0 <= k < vlen X -> velt m' Y k = velt m X k /\ velt m' X k = velt m Y k) /\
      (forall a, ~ cell Y a -> ~ cell X a -> m' a = m a))).
    { unfold armas_swap, armas_size. change (rows X * cols X) with (vlen X).
      change (rows Y * cols Y) with (vlen Y).
      replace (negb (cols X =? 1) && negb (rows X =? 1)) with false by (unfold isvec in VX; lia).
      replace (negb (cols Y =? 1) && negb (rows Y =? 1)) with false by (unfold isvec in VY; lia).
      replace (negb (vlen X =? vlen Y)) with false by lia.
      apply wp_if; intros E.
      - apply wp_ret. split; [auto|split; [intros; lia|auto]].
      - wbind. apply vec_swap_wp; auto. intros m' (H1 & H2). apply wp_ret. split; [auto|split].
        + intros k Hk. rewrite !velt_vad. split.
          * apply (H1 (true, k)). unfold vdom; cbn; lia.
          * apply (H1 (false, k)). unfold vdom; cbn; lia.
        + intros a Ha Ha'. apply H2. intros [[] k] Hk ->.
          * apply Ha. apply vad_cell; auto.
          * apply Ha'. apply vad_cell; auto. change (0 <= k < vlen Y) in Hk; unfold vdom; cbn [snd]; lia. }
    destruct W as (r & m' & E & -> & H1 & H2). exists m'; auto.
  Qed.

  Lemma swap_twice : forall L (m : Z -> T) Y X,
    isvec Y -> isvec X -> wf Y -> wf X -> allocated L Y -> allocated L X -> disjoint Y X ->
    vlen Y = vlen X ->
    exists m1 m2, armas_swap Y X L m = Some (0, m1) /\ armas_swap Y X L m1 = Some (0, m2) /\
      forall a, m2 a = m a.
  Proof.
    intros L m Y X VY VX WY WX LY LX D Hl.
    destruct (swap_spec L m Y X) as (m1 & E1 & A1 & B1); auto.
    destruct (swap_spec L m1 Y X) as (m2 & E2 & A2 & B2); auto.
    exists m1, m2. split; [auto|split; [auto|]]. intros a.
    destruct (in_dec_vec Y a VY WY) as [(k & Hk & ->)|Hn].
    - unfold vdom in Hk. destruct (A1 k) as (P1 & P2); [lia|]. destruct (A2 k) as (P3 & P4); [lia|].
      rewrite <- !velt_vad. congruence.
    - destruct (in_dec_vec X a VX WX) as [(k & Hk & ->)|Hn'].
      + unfold vdom in Hk. destruct (A1 k) as (P1 & P2); [lia|]. destruct (A2 k) as (P3 & P4); [lia|].
        rewrite <- !velt_vad. congruence.
      + rewrite B2, B1; auto.
  Qed.

  Lemma trans_twice : forall L (m : Z -> T) A B C,
    wf A -> wf B -> wf C -> allocated L A -> allocated L B -> allocated L C ->
    disjoint A B -> disjoint B C -> disjoint A C ->
    rows B = cols A -> cols B = rows A -> rows C = rows A -> cols C = cols A ->
    exists m1 m2, armas_mcopy B A ARMAS_TRANS L m = Some (0, m1) /\
      armas_mcopy C B ARMAS_TRANS L m1 = Some (0, m2) /\
      (forall i j, pos A i j -> elt m2 C i j = elt m A i j).
  Proof.
    intros L m A B C WA WB WC LA LB LC DAB DBC DAC H1 H2 H3 H4.
    destruct (mcopy_trans_spec L m B A ARMAS_TRANS) as (m1 & E1 & P1 & F1); auto.
    { intros a Ha Ha'. apply (DAB a); auto. }
    destruct (mcopy_trans_spec L m1 C B ARMAS_TRANS) as (m2 & E2 & P2 & F2); auto; try lia.
    { intros a Ha Ha'. apply (DBC a); auto. }
    exists m1, m2. split; [auto|split; [auto|]]. intros i j Hp.
    rewrite (P2 j i) by (unfold pos in *; lia). apply P1; auto.
  Qed.
End P.
