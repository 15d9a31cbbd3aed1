(* PMatcpy.v: the block copies of MGemm.v. *)
From Coq Require Import ZArith Lia Bool ZifyBool.
From Verif Require Import Mem MView SpecView PView PSub Hoare MFlags MCopy PUpd PCopy
  MNum SpecNum MBlas1 MElem PElem MBlas2 MGemm PFrame.
Local Open Scope Z_scope.
Local Open Scope prog_scope.

Section C.
  Context {T : Type} (K : num T).
  Implicit Types (m : Z -> T).

  Section Mat.
    Variables (L : Z -> bool) (A B : view).
    Hypotheses (WA : wf A) (WB : wf B)
               (AA : allocated L A) (AB : allocated L B) (DAB : disjoint A B).

    (* one element of the transposed copy *)
    Lemma cpta_wp : forall m0 S m i j dp sp (Q : unit -> (Z -> T) -> Prop),
      cols A = rows B -> rows A = cols B ->
      upd m0 (mad A) (fun p => abs K (m0 (mad B (snd p, fst p)))) S m ->
      (forall q, S q -> mdom A q) ->
      pos B i j -> dp = mad A (j, i) -> sp = mad B (i, j) ->
      (forall m', upd m0 (mad A) (fun p => abs K (m0 (mad B (snd p, fst p))))
          (fun q => S q \/ (fst q = j /\ snd q = i)) m' -> Q tt m') ->
      wp (cpa K dp sp) L m Q.
    Proof.
      intros m0 S m i j dp sp Q Hc Hr Hu HS Hp -> -> HQ. unfold cpa. wbind.
      eapply wp_rd_m with (A := B) (i := i) (j := j); auto.
      eapply wp_wr_m with (i := j) (j := i); eauto.
      - unfold pos in *; lia.
      - cbn. f_equal. eapply mupd_disj; eauto. apply mad_cell; auto.
    Qed.

    (* copy_trans1x4 of the columns of B from column j0 on *)
    Lemma copy_trans1x4_abs_wp : forall j0 m0 m (Q : unit -> (Z -> T) -> Prop),
      cols A = rows B -> rows A = cols B -> 0 <= j0 <= cols B ->
      upd m0 (mad A) (fun p => abs K (m0 (mad B (snd p, fst p)))) (fun p => mdom A p /\ fst p < j0) m ->
      (forall m', upd m0 (mad A) (fun p => abs K (m0 (mad B (snd p, fst p)))) (mdom A) m' -> Q tt m') ->
      wp (copy_trans1x4_abs K (elems A + j0) (step A) (elems B + j0 * step B) (step B)
            (rows B) (cols B - j0)) L m Q.
    Proof.
      intros j0 m0 m Q Hc Hr Hj0 Hu HQ. destruct WA as (H1 & H2 & H3).
      destruct WB as (H1' & H2' & H3'). unfold copy_trans1x4_abs.
      apply wp_for1 with (I := fun j m => upd m0 (mad A) (fun p => abs K (m0 (mad B (snd p, fst p))))
           (fun p => mdom A p /\ fst p < j0 + j) m).
      - uext Hu.
      - clear m Hu. intros j m Hj Hu.
        apply wp_unroll4 with (I := fun i m => upd m0 (mad A) (fun p => abs K (m0 (mad B (snd p, fst p))))
           (fun p => mdom A p /\ (fst p < j0 + j \/ (fst p = j0 + j /\ snd p < i))) m); auto.
        + uext Hu.
        + clear m Hu. intros i m Hi Hi3 Hu.
          wbind. eapply cpta_wp with (i := i + 0) (j := j0 + j);
            [auto|auto|exact Hu|intros q Hq; apply Hq|unfold pos; lia|unfold mad; cbn [fst snd]; lia|unfold mad; cbn [fst snd]; lia|].
          clear m Hu; intros m Hu.
          wbind. eapply cpta_wp with (i := i + 1) (j := j0 + j);
            [auto|auto|exact Hu|unfold mdom, pos; cbv beta; intros; lia|unfold pos; lia|unfold mad; cbn [fst snd]; lia|unfold mad; cbn [fst snd]; lia|].
          clear m Hu; intros m Hu.
          wbind. eapply cpta_wp with (i := i + 2) (j := j0 + j);
            [auto|auto|exact Hu|unfold mdom, pos; cbv beta; intros; lia|unfold pos; lia|unfold mad; cbn [fst snd]; lia|unfold mad; cbn [fst snd]; lia|].
          clear m Hu; intros m Hu.
          eapply cpta_wp with (i := i + 3) (j := j0 + j);
            [auto|auto|exact Hu|unfold mdom, pos; cbv beta; intros; lia|unfold pos; lia|unfold mad; cbn [fst snd]; lia|unfold mad; cbn [fst snd]; lia|].
          clear m Hu; intros m Hu.
          uext Hu.
        + clear m Hu. intros i m Hi Hu.
          eapply cpta_wp with (i := i) (j := j0 + j);
            [auto|auto|exact Hu|intros q Hq; apply Hq|unfold pos; lia|unfold mad; cbn [fst snd]; lia|unfold mad; cbn [fst snd]; lia|].
          clear m Hu; intros m Hu.
          uext Hu.
        + intros m' Hu'. uext Hu'.
      - intros m' Hu'. apply HQ. uext Hu'.
    Qed.

    Lemma copy_trans4x1_abs_wp : forall m0 (Q : unit -> (Z -> T) -> Prop),
      cols A = rows B -> rows A = cols B ->
      (forall m', upd m0 (mad A) (fun p => abs K (m0 (mad B (snd p, fst p)))) (mdom A) m' -> Q tt m') ->
      wp (copy_trans4x1_abs K (elems A) (step A) (elems B) (step B) (rows B) (cols B)) L m0 Q.
    Proof.
      intros m0 Q Hc Hr HQ. destruct WA as (H1 & H2 & H3).
      destruct WB as (H1' & H2' & H3'). unfold copy_trans4x1_abs. wbind.
      destruct (tail_cases (cols B) H2') as (Ht1 & Ht2).
      apply wp_for_up with (I := fun j m => upd m0 (mad A) (fun p => abs K (m0 (mad B (snd p, fst p))))
           (fun p => mdom A p /\ fst p < j) m); try lia.
      - apply upd_nil. unfold mdom, pos; cbv beta; intros; lia.
      - intros j m k Hk Ek Hj Hu.
        apply wp_for1 with (I := fun i m => upd m0 (mad A) (fun p => abs K (m0 (mad B (snd p, fst p))))
           (fun p => mdom A p /\ (fst p < j \/ (fst p < j + 4 /\ snd p < i))) m).
        + uext Hu.
        + clear m Hu. intros i m Hi Hu.
          wbind. eapply cpta_wp with (i := i) (j := j + 0);
            [auto|auto|exact Hu|intros q Hq; apply Hq|unfold pos; lia|unfold mad; cbn [fst snd]; lia|unfold mad; cbn [fst snd]; lia|].
          clear m Hu; intros m Hu.
          wbind. eapply cpta_wp with (i := i) (j := j + 1);
            [auto|auto|exact Hu|unfold mdom, pos; cbv beta; intros; lia|unfold pos; lia|unfold mad; cbn [fst snd]; lia|unfold mad; cbn [fst snd]; lia|].
          clear m Hu; intros m Hu.
          wbind. eapply cpta_wp with (i := i) (j := j + 2);
            [auto|auto|exact Hu|unfold mdom, pos; cbv beta; intros; lia|unfold pos; lia|unfold mad; cbn [fst snd]; lia|unfold mad; cbn [fst snd]; lia|].
          clear m Hu; intros m Hu.
          eapply cpta_wp with (i := i) (j := j + 3);
            [auto|auto|exact Hu|unfold mdom, pos; cbv beta; intros; lia|unfold pos; lia|unfold mad; cbn [fst snd]; lia|unfold mad; cbn [fst snd]; lia|].
          clear m Hu; intros m Hu.
          uext Hu.
        + intros m' Hu'. uext Hu'.
      - intros m Hu. apply wp_when.
        + intros _. eapply copy_trans1x4_abs_wp; eauto.
        + intros E. apply HQ. uext Hu.
    Qed.

    Lemma copy_plain_abs_wp : forall m0 (Q : unit -> (Z -> T) -> Prop),
      rows A = rows B -> cols A = cols B ->
      (forall m', upd m0 (mad A) (fun p => abs K (m0 (mad B p))) (mdom A) m' -> Q tt m') ->
      wp (copy_plain_abs K (elems A) (step A) (elems B) (step B) (rows B) (cols B)) L m0 Q.
    Proof.
      intros m0 Q Hr Hc HQ. unfold copy_plain_abs. rewrite <- Hr, <- Hc.
      apply (est_all4 L A m0 (fun p => abs K (m0 (mad B p))) WA) with
        (e := fun i j => cpa K (elems A + (i + j * step A)) (elems B + (i + j * step B))).
      - intros S m i j Q' Hu Hp Hn HQ'. unfold cpa. wbind.
        assert (Hp' : pos B i j) by (unfold pos in *; lia).
        eapply wp_rd_m with (A := B) (i := i) (j := j); auto; [unfold mad; cbn [fst snd]; lia|].
        eapply (U_wr L A m0 _ WA AA S m i j); [exact Hu|exact Hp|unfold mad; cbn [fst snd]; lia| |exact HQ'].
        cbv beta. f_equal. eapply U_disj; eauto. apply mad_cell; auto.
      - intros m' (Hu & _). apply HQ, Hu.
    Qed.
  End Mat.

  Definition absf (flags : Z) (x : T) : T := if has flags absflags then abs K x else x.

  Lemma upd_all : forall A (m m' : Z -> T) F, wf A -> upd m (mad A) F (mdom A) m' ->
    (forall i j, pos A i j -> elt m' A i j = F (i, j)) /\ only_changes A m m'.
  Proof.
    intros A m m' F W Hu.
    destruct (U_end A m F W (mdom A) (fun _ _ => true) m') as (H1 & H2); auto.
    - split; auto.
    - intros i j Hp. unfold mdom. cbn [fst snd]. tauto.
  Qed.

  Lemma CPBLK_wp : forall L m d s nR nC flags (Q : unit -> (Z -> T) -> Prop),
    mok L d -> mok L s -> disjoint d s -> rows d = nR -> cols d = nC -> rows s = nR -> cols s = nC ->
    (forall m', (forall i j, pos d i j -> elt m' d i j = absf flags (elt m s i j)) -> only_changes d m m' -> Q tt m') ->
    wp (CPBLK K d s nR nC flags) L m Q.
  Proof.
    intros L m d s nR nC flags Q (Wd & Ld) (Ws & Ls) D E1 E2 E3 E4 HQ. unfold CPBLK, absf in *. rewrite <- E3, <- E4.
    destruct (has flags absflags).
    - apply copy_plain_abs_wp; auto; try congruence. intros m' Hu. destruct (upd_all _ _ _ _ Wd Hu). apply HQ; auto.
    - apply copy_plain_wp; auto; try congruence. intros m' Hu. destruct (upd_all _ _ _ _ Wd Hu). apply HQ; auto.
  Qed.

  Lemma CPBLK_TRANS_wp : forall L m d s nR nC flags (Q : unit -> (Z -> T) -> Prop),
    mok L d -> mok L s -> disjoint d s -> rows d = nC -> cols d = nR -> rows s = nR -> cols s = nC ->
    (forall m', (forall i j, pos d i j -> elt m' d i j = absf flags (elt m s j i)) -> only_changes d m m' -> Q tt m') ->
    wp (CPBLK_TRANS K d s nR nC flags) L m Q.
  Proof.
    intros L m d s nR nC flags Q (Wd & Ld) (Ws & Ls) D E1 E2 E3 E4 HQ. unfold CPBLK_TRANS, absf in *. rewrite <- E3, <- E4.
    destruct (has flags absflags).
    - apply copy_trans4x1_abs_wp; auto; try congruence. intros m' Hu. destruct (upd_all _ _ _ _ Wd Hu). apply HQ; auto.
    - apply copy_trans4x1_wp; auto; try congruence. intros m' Hu. destruct (upd_all _ _ _ _ Wd Hu). apply HQ; auto.
  Qed.
End C.
