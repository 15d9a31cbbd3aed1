(* Inst.v: concrete arithmetics that satisfy the hypotheses used in theorems:
   integers (ring), rationals (ordered field), reals (ordered field with square
   roots).  Used to show that theorems are not vacuous and to compute examples. *)
From Coq Require Import ZArith Lia Ring Field Bool QArith Qcanon Qcabs Reals Lra.
From Verif Require Import MNum SpecNum.
Local Open Scope Z_scope.

Definition Znum : num Z :=
  mknum Z 0 1 Z.add Z.sub Z.mul Z.div Z.opp Z.abs Z.sqrt Z.eqb Z.ltb.

Lemma Z_ring : is_ring Znum. Proof. exact InitialRing.Zth. Qed.
Lemma Z_eqb : eqb_ok Znum. Proof. intros a b. apply Z.eqb_eq. Qed.
Lemma Z_ltb : ltb_ok Znum.
Proof.
  repeat split; cbn; intros.
  - apply Z.ltb_irrefl.
  - lia.
  - lia.
Qed.
Lemma Z_abs_nn : forall t, ltb Znum (abs Znum t) (zero Znum) = false.
Proof. cbn. lia. Qed.

Definition Qcltb (a b : Qc) : bool := if Qclt_le_dec a b then true else false.
Definition Qcnum : num Qc :=
  mknum Qc 0%Qc 1%Qc Qcplus Qcminus Qcmult Qcdiv Qcopp
    (fun a => if Qcltb a 0%Qc then (- a)%Qc else a) (fun a => a) Qc_eq_bool Qcltb.

Lemma Qc_field : is_field Qcnum.
Proof.
  unfold is_field. cbn. constructor.
  - exact (F_R Qcft).
  - discriminate.
  - intros p q. unfold Qcdiv. rewrite Qcmult_1_l. reflexivity.
  - intros p Hp. unfold Qcdiv. rewrite Qcmult_1_l. rewrite Qcmult_comm. apply Qcmult_inv_r. auto.
Qed.
Lemma Qc_ring : is_ring Qcnum. Proof. exact (F_R Qc_field). Qed.
Lemma Qc_eqb : eqb_ok Qcnum.
Proof.
  intros a b. cbn. split; [apply Qc_eq_bool_correct|]. intros ->. unfold Qc_eq_bool.
  destruct (Qc_eq_dec b b); auto.
Qed.
Lemma Qcltb_iff : forall a b, Qcltb a b = true <-> (a < b)%Qc.
Proof.
  intros a b. unfold Qcltb. destruct (Qclt_le_dec a b); split; auto; try discriminate.
  intros H. exfalso. apply (Qclt_not_le _ _ H). auto.
Qed.
Lemma Qc_ordered : is_ordered Qcnum.
Proof.
  split; [split; [|split]|split; [|split]]; cbn.
  - intros a. destruct (Qcltb a a) eqn:E; auto. apply Qcltb_iff in E. exfalso.
    apply (Qclt_not_le _ _ E). apply Qcle_refl.
  - intros a b c H1 H2. apply Qcltb_iff in H1. apply Qcltb_iff in H2. apply Qcltb_iff.
    eapply Qclt_trans; eauto.
  - intros a b. rewrite !Qcltb_iff. destruct (Qc_dec a b) as [[H|H]|H]; auto.
  - intros a b c H. apply Qcltb_iff in H. apply Qcltb_iff. unfold Qclt in *.
    rewrite !(Qcplus_comm _ c). unfold Qcplus, Q2Qc. cbn [this]. rewrite !Qred_correct.
    apply Qplus_lt_r. auto.
  - intros a b H1 H2. apply Qcltb_iff in H1. apply Qcltb_iff in H2. apply Qcltb_iff. unfold Qclt in *.
    unfold Qcmult, Q2Qc in *. cbn [this] in *. rewrite !Qred_correct. apply Qmult_lt_0_compat; auto.
  - auto.
Qed.

Definition Rltb (a b : R) : bool := if Rlt_dec a b then true else false.
Definition Reqb (a b : R) : bool := if Req_EM_T a b then true else false.
Definition Rnum : num R :=
  mknum R 0%R 1%R Rplus Rminus Rmult Rdiv Ropp Rabs R_sqrt.sqrt Reqb Rltb.

Lemma R_field : is_field Rnum.
Proof.
  unfold is_field. cbn. constructor.
  - exact (F_R Rfield).
  - exact R1_neq_R0.
  - intros p q. unfold Rdiv. rewrite Rmult_1_l. reflexivity.
  - intros p Hp. field. auto.
Qed.
Lemma Rltb_iff : forall a b, Rltb a b = true <-> (a < b)%R.
Proof. intros a b. unfold Rltb. destruct (Rlt_dec a b); split; auto; try discriminate; intros; contradiction. Qed.
Lemma Rltb_false : forall a b, Rltb a b = false <-> (b <= a)%R.
Proof.
  intros a b. unfold Rltb. destruct (Rlt_dec a b); split; auto; try discriminate; intros; try lra.
Qed.
Lemma R_eqb : eqb_ok Rnum.
Proof. intros a b. cbn. unfold Reqb. destruct (Req_EM_T a b); split; auto; try discriminate; intros; contradiction. Qed.
Lemma R_ordered : is_ordered Rnum.
Proof.
  split; [split; [|split]|split; [|split]]; cbn.
  - intros a. apply Rltb_false. lra.
  - intros a b c. rewrite !Rltb_iff. lra.
  - intros a b. rewrite !Rltb_iff. lra.
  - intros a b c. rewrite !Rltb_iff. lra.
  - intros a b. rewrite !Rltb_iff. apply Rmult_lt_0_compat.
  - intros a. destruct (Rltb a 0) eqn:E.
    + apply Rltb_iff in E. apply Rabs_left. auto.
    + apply Rltb_false in E. apply Rabs_right. lra.
Qed.
Lemma R_sqrt_ok : sqrt_ok Rnum.
Proof.
  intros a. cbn. rewrite !Rltb_false. intros H. split; [apply sqrt_pos|apply sqrt_sqrt; auto].
Qed.
