(* PCounter.v: invariant of the completion counter. *)
From Coq Require Import ZArith Lia Bool List Arith.
From Verif Require Import MThread PThread MCounter.
Import ListNotations.
Local Open Scope Z_scope.

(* sum over the threads 0 .. n-1 *)
Fixpoint tsum (f : nat -> Z) (n : nat) : Z := match n with O => 0 | S n' => tsum f n' + f n' end.
Lemma tsum_upd : forall f i v n, (i < n)%nat -> tsum (supd f i v) n = tsum f n - f i + v.
Proof.
  intros f i v. induction n as [|n IH]; intros H; [lia|]. cbn [tsum]. destruct (Nat.eq_dec i n) as [->|Hn].
  - rewrite supd_same. assert (E : forall k, (k <= n)%nat -> tsum (supd f n v) k = tsum f k).
    { induction k; intros; cbn [tsum]; [reflexivity|]. rewrite IHk, supd_other by lia. reflexivity. }
    rewrite E by lia. lia.
  - rewrite supd_other, IH by lia. lia.
Qed.
Lemma tsum_ext : forall f g n, (forall i, (i < n)%nat -> f i = g i) -> tsum f n = tsum g n.
Proof. intros f g. induction n; intros H; cbn [tsum]; [reflexivity|]. rewrite IHn, H; auto. Qed.
Lemma tsum_nonneg : forall f n, (forall i, 0 <= f i) -> 0 <= tsum f n.
Proof. intros f n H. induction n; cbn [tsum]; [lia|]. specialize (H n). lia. Qed.
Lemma tsum_le : forall f g n, (forall i, f i <= g i) -> tsum f n <= tsum g n.
Proof. intros f g n H. induction n; cbn [tsum]; [lia|]. specialize (H n). lia. Qed.
Lemma tsum_zero : forall f n i, (forall i, 0 <= f i) -> tsum f n = 0 -> (i < n)%nat -> f i = 0.
Proof.
  intros f n i H. induction n; intros E Hi; [lia|]. cbn [tsum] in E. pose proof (tsum_nonneg f n H). pose proof (H n).
  destruct (Nat.eq_dec i n) as [->|]; [lia|]. apply IHn; lia.
Qed.

Local Notation ts := (tstate clab unit cev).

Definition body1 (n : nat) : cprog :=
  let! c := get CNT in
  Put CNT (c - 1) (
  let! c := get CNT in
  if c =? 0 then Signal READY (Unlock CLOCK (Goto (Worker n))) else Unlock CLOCK (Goto (Worker n))).
Definition body2 (n : nat) : cprog :=
  let! c := get CNT in
  if c =? 0 then Signal READY (Unlock CLOCK (Goto (Worker n))) else Unlock CLOCK (Goto (Worker n)).
Definition wbody : cprog :=
  let! c := get CNT in
  if negb (c =? 0) then Wait READY CLOCK (Unlock CLOCK (Emit Released Halt)) else Unlock CLOCK (Emit Released Halt).

Definition wgt (n : nat) (k : Z) : Z := 9 * Z.of_nat n + k.

(* Where a thread is: tasks still to be announced, decrements still to be done, whether it holds
   the mutex, whether it is going to signal, whether it is the waiting thread, a bound on the
   number of its steps to come.  After a spurious wake-up the waiting thread goes on with any
   value of the counter. *)
Inductive pos (sp : bool) (c : Z) : ts -> Z -> Z -> bool -> bool -> bool -> Z -> Prop :=
| wk_goto : forall n, pos sp c (Run (Goto (Worker n))) (Z.of_nat n) (Z.of_nat n) false false false (wgt n 2)
| wk_halt : pos sp c (Run Halt) 0 0 false false false 0
| wk_emit : forall n, pos sp c (Run (Emit TaskDone (Lock CLOCK (body1 n)))) (Z.of_nat n + 1) (Z.of_nat n + 1) false false false (wgt n 10)
| wk_lock : forall n, pos sp c (Run (Lock CLOCK (body1 n))) (Z.of_nat n) (Z.of_nat n + 1) false false false (wgt n 9)
| wk_get : forall n, pos sp c (Run (body1 n)) (Z.of_nat n) (Z.of_nat n + 1) true false false (wgt n 8)
| wk_put : forall n v, v = c - 1 -> pos sp c (Run (Put CNT v (body2 n))) (Z.of_nat n) (Z.of_nat n + 1) true false false (wgt n 7)
| wk_get2 : forall n, pos sp c (Run (body2 n)) (Z.of_nat n) (Z.of_nat n) true true false (wgt n 6)
| wk_signal : forall n, c = 0 -> pos sp c (Run (Signal READY (Unlock CLOCK (Goto (Worker n))))) (Z.of_nat n) (Z.of_nat n) true true false (wgt n 5)
| wk_unlock : forall n, pos sp c (Run (Unlock CLOCK (Goto (Worker n)))) (Z.of_nat n) (Z.of_nat n) true false false (wgt n 4)
| wt_goto : pos sp c (Run (Goto Waiter)) 0 0 false false true 8
| wt_lock : pos sp c (Run (Lock CLOCK wbody)) 0 0 false false true 7
| wt_get : pos sp c (Run wbody) 0 0 true false true 6
| wt_wait : c <> 0 -> pos sp c (Run (Wait READY CLOCK (Unlock CLOCK (Emit Released Halt)))) 0 0 true false true 5
| wt_asleep : pos sp c (Asleep READY CLOCK (Unlock CLOCK (Emit Released Halt))) 0 0 false false true 4
| wt_woken : (sp = false -> c = 0) -> pos sp c (Run (Lock CLOCK (Unlock CLOCK (Emit Released Halt)))) 0 0 false false true 3
| wt_unlock : (sp = false -> c = 0) -> pos sp c (Run (Unlock CLOCK (Emit Released Halt))) 0 0 true false true 2
| wt_emit : (sp = false -> c = 0) -> pos sp c (Run (Emit Released Halt)) 0 0 false false true 1
| wt_halt : (sp = false -> c = 0) -> pos sp c (Run Halt) 0 0 false false true 0.

(* the tasks done according to the trace *)
Fixpoint dones (tr : list (nat * cev)) : Z :=
  match tr with [] => 0 | (_, TaskDone) :: tr' => dones tr' + 1 | _ :: tr' => dones tr' end.

Record per : Type := mkper { pe : Z; pr : Z; pw : bool; pg : Z }.

Definition owns (s : state clab unit cev) (i : nat) : bool :=
  match owner s CLOCK with Some j => Nat.eqb j i | None => false end.

Definition CInv (sp : bool) (N : Z) (nw : nat) (s : state clab unit cev) (p : nat -> per) : Prop :=
  (forall i, pos sp (mem s CNT) (thr s i) (pe (p i)) (pr (p i)) (owns s i) (pw (p i)) (Nat.eqb i 0) (pg (p i))) /\
  (forall i, (nw < i)%nat -> thr s i = Run Halt) /\
  mem s CNT = tsum (fun i => pr (p i)) (S nw) /\
  dones (trace s) + tsum (fun i => pe (p i)) (S nw) = N /\
  (forall cv l k, thr s 0%nat = Asleep cv l k -> mem s CNT <> 0 \/ exists i, pw (p i) = true) /\
  (sp = false -> forall t1 t2 i, trace s = t1 ++ (i, Released) :: t2 -> dones t2 = N) /\
  (thr s 0%nat = Run Halt -> In (0%nat, Released) (trace s)).

Local Ltac lia := unfold wgt in *; Lia.lia.
Lemma pos_nonneg : forall sp c t e r o w b g, pos sp c t e r o w b g -> 0 <= e <= r /\ 0 <= g.
Proof. intros sp c t e r o w b g H. inversion H; subst; lia. Qed.
Lemma pos_own : forall sp c t e r o w b g, pos sp c t e r o w b g -> w = true -> o = true.
Proof. intros sp c t e r o w b g H. inversion H; subst; congruence. Qed.
(* a thread that does not hold the mutex does not mind a change of the counter to a value that
   the released waiter may see *)
Lemma pos_other : forall sp c c' t e r w b g, pos sp c t e r false w b g -> (c = 0 -> c' = 0) -> pos sp c' t e r false w b g.
Proof. intros sp c c' t e r w b g H Hc. inversion H; subst; constructor; auto. Qed.

Lemma tsum_p : forall (f : per -> Z) p i q n, (i < n)%nat ->
  tsum (fun j => f (supd p i q j)) n = tsum (fun j => f (p j)) n - f (p i) + f q.
Proof.
  intros f p i q n Hi. rewrite <- (tsum_upd (fun j => f (p j)) i (f q) n Hi). apply tsum_ext. intros j _. unfold supd.
  destruct (Nat.eqb j i); reflexivity.
Qed.

Lemma CInv_upd : forall sp N nw s s' p i q,
  CInv sp N nw s p -> (i <= nw)%nat ->
  (forall j, j <> i -> thr s' j = thr s j) -> (forall j, j <> i -> owns s' j = owns s j) ->
  pos sp (mem s' CNT) (thr s' i) (pe q) (pr q) (owns s' i) (pw q) (Nat.eqb i 0) (pg q) ->
  (mem s' CNT = mem s CNT \/ (owns s i = true /\ mem s CNT <> 0)) ->
  mem s' CNT = mem s CNT + (pr q - pr (p i)) ->
  dones (trace s') + pe q = dones (trace s) + pe (p i) ->
  (forall cv l k, thr s' 0%nat = Asleep cv l k -> mem s' CNT <> 0 \/ exists j, pw (supd p i q j) = true) ->
  (trace s' = trace s \/ trace s' = (i, TaskDone) :: trace s \/ (trace s' = (i, Released) :: trace s /\ (sp = false -> dones (trace s) = N))) ->
  (thr s' 0%nat = Run Halt -> In (0%nat, Released) (trace s')) ->
  pg q < pg (p i) ->
  exists p', CInv sp N nw s' p' /\ tsum (fun j => pg (p' j)) (S nw) < tsum (fun j => pg (p j)) (S nw).
Proof.
  intros sp N nw s s' p i q (HP & HO & HC & HD & HA & HT & HF) Hi Ht Ho Hq Hm Hm' Hd Ha Htr Hf Hg. exists (supd p i q). split.
  - split; [|split; [|split; [|split; [|split; [|split]]]]].
    + intros j. destruct (Nat.eq_dec j i) as [->|Hn].
      * rewrite supd_same. exact Hq.
      * rewrite supd_other, Ht, Ho by auto. specialize (HP j). destruct Hm as [->|(Hw & Hc)]; [exact HP|].
        assert (Eo : owns s j = false).
        { revert Hw. unfold owns. destruct (owner s CLOCK) as [w|]; [|auto].
          intros Ew. apply Nat.eqb_eq in Ew. subst w. apply Nat.eqb_neq. auto. }
        rewrite Eo in *. eapply pos_other; [exact HP|]. tauto.
    + intros j Hj. rewrite Ht by lia. auto.
    + rewrite tsum_p by lia. lia.
    + rewrite tsum_p by lia. lia.
    + exact Ha.
    + intros Es t1 t2 j E. destruct Htr as [Et|[Et|(Et & Hn)]]; rewrite Et in E.
      * eauto.
      * destruct t1 as [|x t1]; [discriminate E|]. injection E as _ E. eauto.
      * destruct t1 as [|x t1]; injection E as E1 E; [subst t2; auto|eauto].
    + exact Hf.
  - rewrite tsum_p by lia. lia.
Qed.

Ltac posinv HP i := let H := fresh "Hp" in pose proof (HP i) as H;
  match goal with E : ?t i = _ |- _ => cbn [thr] in H; rewrite E in H end.

Lemma owns_seto : forall m o t tr w j, owns (mkstate m (seto o CLOCK w) t tr) j = match w with Some k => Nat.eqb k j | None => false end.
Proof. intros. unfold owns. cbn [owner]. rewrite seto_same. reflexivity. Qed.


Local Ltac ow i := match goal with H : ?b = owns ?s i |- context [owns ?s' i] => change (owns s' i) with (owns s i); rewrite <- H end.
Lemma CInv_step : forall sp N nw b i s s' p, CInv sp N nw s p -> (b = true -> sp = true) -> step ccode b i s s' ->
  exists p', CInv sp N nw s' p' /\ tsum (fun j => pg (p' j)) (S nw) < tsum (fun j => pg (p j)) (S nw).
Proof.
  intros sp N nw b i s s' p HI Hb Hs. pose proof HI as (HP & HO & HC & HD & HA & HT & HF).
  assert (Hi : (i <= nw)%nat).
  { destruct (le_lt_dec i nw) as [|Hl]; auto. exfalso. specialize (HO i Hl). inversion Hs; subst; cbn [thr] in HO; congruence. }
  assert (Hr : forall j, 0 <= pr (p j)) by (intros j; specialize (HP j); apply pos_nonneg in HP; lia).
  assert (He : forall j, pe (p j) <= pr (p j)) by (intros j; specialize (HP j); apply pos_nonneg in HP; lia).
  assert (He0 : forall j, 0 <= pe (p j)) by (intros j; specialize (HP j); apply pos_nonneg in HP; lia).
  assert (HD0 : mem s CNT = 0 -> dones (trace s) = N).
  { intros E. rewrite HC in E. pose proof (tsum_le (fun j => pe (p j)) (fun j => pr (p j)) (S nw) He).
    pose proof (tsum_nonneg (fun j => pe (p j)) (S nw) He0). cbn beta in *. lia. }
  clear HD.
  assert (Hoth : forall m o t tr, s = mkstate m o t tr -> i <> 0%nat -> forall x m' q,
    (pw (p i) = true -> pw q = true) -> (m' CNT = m CNT \/ pw q = true) ->
    (forall cv l k, sett t i x 0%nat = Asleep cv l k -> m' CNT <> 0 \/ exists j, pw (supd p i q j) = true) /\
    (sett t i x 0%nat = Run Halt -> In (0%nat, Released) tr)).
  { intros m o t tr -> H0 x m' q Hw Hm. cbn [mem thr trace] in *. rewrite sett_other by auto. split; [|auto].
    intros cv l k E. destruct Hm as [Hm|Hm]; [|right; exists i; rewrite supd_same; auto].
    destruct (HA _ _ _ E) as [HN|(j & Ej)]; [left; congruence|]. right. exists j.
    destruct (Nat.eq_dec j i) as [->|]; [rewrite supd_same; auto|rewrite supd_other; auto]. }
  inversion Hs; subst; posinv HP i; cbn [mem owner thr trace] in *.
  - (* goto *)
    inversion Hp; subst; match goal with H : _ = Nat.eqb i 0 |- _ => rename H into Hk end.
    + (* worker *) assert (H0 : i <> 0%nat) by (intros ->; discriminate Hk). destruct n as [|n].
      * apply CInv_upd with (s := mkstate m o t tr) (i := i) (q := mkper 0 0 false 0); auto; cbn [thr trace mem pe pr pw pg].
        -- intros. apply sett_other; auto.
        -- rewrite sett_same. ow i. rewrite <- Hk. apply wk_halt.
        -- lia.
        -- lia.
        -- apply (Hoth m o t tr); auto; cbn [pw]; congruence.
        -- apply (Hoth m o t tr eq_refl H0 _ m (mkper 0 0 false 0)); auto; cbn [pw]; congruence.
        -- lia.
      * apply CInv_upd with (s := mkstate m o t tr) (i := i) (q := mkper (Z.of_nat n + 1) (Z.of_nat n + 1) false (wgt n 10)); auto; cbn [thr trace mem pe pr pw pg].
        -- intros. apply sett_other; auto.
        -- rewrite sett_same. ow i. rewrite <- Hk. apply wk_emit.
        -- lia.
        -- lia.
        -- apply (Hoth m o t tr); auto; cbn [pw]; congruence.
        -- apply (Hoth m o t tr eq_refl H0 _ m (mkper 0 0 false 0)); auto; cbn [pw]; congruence.
        -- lia.
    + (* waiter *) symmetry in Hk. apply Nat.eqb_eq in Hk. subst i.
      apply CInv_upd with (s := mkstate m o t tr) (i := 0%nat) (q := mkper 0 0 false 7); auto; cbn [thr trace mem pe pr pw pg].
      -- intros. apply sett_other; auto.
      -- rewrite sett_same. ow 0%nat. apply wt_lock.
      -- lia.
      -- lia.
      -- rewrite sett_same. discriminate.
      -- rewrite sett_same. discriminate.
      -- lia.
  - inversion Hp.
  - (* emit *)
    inversion Hp; subst; match goal with H : _ = Nat.eqb i 0 |- _ => rename H into Hk end.
    + (* worker *) assert (H0 : i <> 0%nat) by (intros ->; discriminate Hk).
      apply CInv_upd with (s := mkstate m o t tr) (i := i) (q := mkper (Z.of_nat n) (Z.of_nat n + 1) false (wgt n 9)); auto; cbn [thr trace mem pe pr pw pg].
        -- intros. apply sett_other; auto.
        -- rewrite sett_same. ow i. rewrite <- Hk. apply wk_lock.
        -- lia.
        -- cbn [dones]. lia.
        -- apply (Hoth m o t tr); auto; cbn [pw]; congruence.
        -- rewrite sett_other by auto. intros E. right. auto.
        -- lia.
    + symmetry in Hk. apply Nat.eqb_eq in Hk. subst i.
      apply CInv_upd with (s := mkstate m o t tr) (i := 0%nat) (q := mkper 0 0 false 0); auto; cbn [thr trace mem pe pr pw pg].
      -- intros. apply sett_other; auto.
      -- rewrite sett_same. ow 0%nat. apply wt_halt. auto.
      -- lia.
      -- cbn [dones]. lia.
      -- rewrite sett_same. discriminate.
      -- right. right. auto.
      -- rewrite sett_same. intros _. left. reflexivity.
      -- lia.
  - (* get *)
    inversion Hp; subst; match goal with H : _ = Nat.eqb i 0 |- _ => rename H into Hk end.
    + (* worker 1 *) assert (H0 : i <> 0%nat) by (intros ->; discriminate Hk).
      apply CInv_upd with (s := mkstate m o t tr) (i := i) (q := mkper (Z.of_nat n) (Z.of_nat n + 1) false (wgt n 7)); auto; cbn [thr trace mem pe pr pw pg].
        -- intros. apply sett_other; auto.
        -- rewrite sett_same. ow i. rewrite <- Hk. apply wk_put. reflexivity.
        -- lia.
        -- lia.
        -- apply (Hoth m o t tr); auto; cbn [pw]; congruence.
        -- rewrite sett_other by auto. auto.
        -- lia.
    + (* worker 2 *) assert (H0 : i <> 0%nat) by (intros ->; discriminate Hk).
      destruct (Z.eqb_spec (m CNT) 0) as [Ec|Ec].
      * apply CInv_upd with (s := mkstate m o t tr) (i := i) (q := mkper (Z.of_nat n) (Z.of_nat n) true (wgt n 5)); auto; cbn [thr trace mem pe pr pw pg].
        -- intros. apply sett_other; auto.
        -- rewrite sett_same. ow i. rewrite <- Hk. apply wk_signal. exact Ec.
        -- lia.
        -- lia.
        -- apply (Hoth m o t tr); auto; cbn [pw]; congruence.
        -- rewrite sett_other by auto. auto.
        -- lia.
      * apply CInv_upd with (s := mkstate m o t tr) (i := i) (q := mkper (Z.of_nat n) (Z.of_nat n) false (wgt n 4)); auto; cbn [thr trace mem pe pr pw pg].
        -- intros. apply sett_other; auto.
        -- rewrite sett_same. ow i. rewrite <- Hk. apply wk_unlock.
        -- lia.
        -- lia.
        -- rewrite sett_other by auto. auto.
        -- lia.
    + symmetry in Hk. apply Nat.eqb_eq in Hk. subst i. destruct (Z.eqb_spec (m CNT) 0) as [Ec|Ec]; cbn [negb].
      * apply CInv_upd with (s := mkstate m o t tr) (i := 0%nat) (q := mkper 0 0 false 2); auto; cbn [thr trace mem pe pr pw pg].
        -- intros. apply sett_other; auto.
        -- rewrite sett_same. ow 0%nat. apply wt_unlock. auto.
        -- lia.
        -- lia.
        -- rewrite sett_same. discriminate.
        -- rewrite sett_same. discriminate.
        -- lia.
      * apply CInv_upd with (s := mkstate m o t tr) (i := 0%nat) (q := mkper 0 0 false 5); auto; cbn [thr trace mem pe pr pw pg].
        -- intros. apply sett_other; auto.
        -- rewrite sett_same. ow 0%nat. apply wt_wait. auto.
        -- lia.
        -- lia.
        -- rewrite sett_same. discriminate.
        -- lia.
  - (* put *)
    inversion Hp; subst; match goal with H : _ = Nat.eqb i 0 |- _ => rename H into Hk end.
    assert (H0 : i <> 0%nat) by (intros ->; discriminate Hk).
    assert (Hm : setm m CNT (m CNT - 1) CNT = m CNT - 1) by (unfold setm; rewrite Z.eqb_refl; reflexivity).
    apply CInv_upd with (s := mkstate m o t tr) (i := i) (q := mkper (Z.of_nat n) (Z.of_nat n) true (wgt n 6)); auto; cbn [thr trace mem pe pr pw pg].
    + intros. apply sett_other; auto.
    + rewrite sett_same. ow i. rewrite <- Hk. apply wk_get2.
    + right. split; [auto|]. intros E. rewrite HC in E.
      pose proof (tsum_zero (fun j => pr (p j)) (S nw) i Hr E ltac:(lia)) as Ez. cbn beta in Ez. lia.
    + lia.
    + lia.
    + intros. right. exists i. rewrite supd_same. reflexivity.
    + rewrite sett_other by auto. auto.
    + lia.
  - inversion Hp.
  - inversion Hp.
  - inversion Hp.
  - inversion Hp.
  - inversion Hp.
  - inversion Hp.
  - inversion Hp.
  - (* lock *)
    inversion Hp; subst; match goal with H : _ = Nat.eqb i 0 |- _ => rename H into Hk end;
      match goal with H : o CLOCK = _ |- _ => rename H into Ho end.
    + (* worker *) assert (Hz : i <> 0%nat) by (intros ->; discriminate Hk).
      apply CInv_upd with (s := mkstate m o t tr) (i := i) (q := mkper (Z.of_nat n) (Z.of_nat n + 1) false (wgt n 8)); auto; cbn [thr trace mem pe pr pw pg].
        -- intros. apply sett_other; auto.
        -- intros j Hj. rewrite owns_seto. unfold owns. cbn [owner]. rewrite Ho. apply Nat.eqb_neq. auto.
        -- rewrite sett_same, owns_seto, Nat.eqb_refl, <- Hk. apply wk_get.
        -- lia.
        -- lia.
        -- apply (Hoth m o t tr); auto; cbn [pw]; congruence.
        -- rewrite sett_other by auto. auto.
        -- lia.
    + symmetry in Hk. apply Nat.eqb_eq in Hk. subst i.
      apply CInv_upd with (s := mkstate m o t tr) (i := 0%nat) (q := mkper 0 0 false 6); auto; cbn [thr trace mem pe pr pw pg].
      -- intros. apply sett_other; auto.
      -- intros j Hj. rewrite owns_seto. unfold owns. cbn [owner]. rewrite Ho. apply Nat.eqb_neq. auto.
      -- rewrite sett_same, owns_seto. apply wt_get.
      -- lia.
      -- lia.
      -- rewrite sett_same. discriminate.
      -- rewrite sett_same. discriminate.
      -- lia.
    + symmetry in Hk. apply Nat.eqb_eq in Hk. subst i.
      apply CInv_upd with (s := mkstate m o t tr) (i := 0%nat) (q := mkper 0 0 false 2); auto; cbn [thr trace mem pe pr pw pg].
      -- intros. apply sett_other; auto.
      -- intros j Hj. rewrite owns_seto. unfold owns. cbn [owner]. rewrite Ho. apply Nat.eqb_neq. auto.
      -- rewrite sett_same, owns_seto. apply wt_unlock. auto.
      -- lia.
      -- lia.
      -- rewrite sett_same. discriminate.
      -- rewrite sett_same. discriminate.
      -- lia.
  - (* unlock *)
    inversion Hp; subst; match goal with H : _ = Nat.eqb i 0 |- _ => rename H into Hk end;
      match goal with H : o CLOCK = _ |- _ => rename H into Ho end.
    + (* worker *) assert (Hz : i <> 0%nat) by (intros ->; discriminate Hk).
      apply CInv_upd with (s := mkstate m o t tr) (i := i) (q := mkper (Z.of_nat n) (Z.of_nat n) false (wgt n 2)); auto; cbn [thr trace mem pe pr pw pg].
        -- intros. apply sett_other; auto.
        -- intros j Hj. rewrite owns_seto. unfold owns. cbn [owner]. rewrite Ho. symmetry. apply Nat.eqb_neq. auto.
        -- rewrite sett_same, owns_seto, <- Hk. apply wk_goto.
        -- lia.
        -- lia.
        -- apply (Hoth m o t tr); auto; cbn [pw]; congruence.
        -- rewrite sett_other by auto. auto.
        -- lia.
    + symmetry in Hk. apply Nat.eqb_eq in Hk. subst i.
      apply CInv_upd with (s := mkstate m o t tr) (i := 0%nat) (q := mkper 0 0 false 1); auto; cbn [thr trace mem pe pr pw pg].
      -- intros. apply sett_other; auto.
      -- intros j Hj. rewrite owns_seto. unfold owns. cbn [owner]. rewrite Ho. symmetry. apply Nat.eqb_neq. auto.
      -- rewrite sett_same, owns_seto. apply wt_emit. auto.
      -- lia.
      -- lia.
      -- rewrite sett_same. discriminate.
      -- rewrite sett_same. discriminate.
      -- lia.
  - (* wait *)
    inversion Hp; subst; match goal with H : _ = Nat.eqb i 0 |- _ => rename H into Hk end;
      match goal with H : o CLOCK = _ |- _ => rename H into Ho end.
    symmetry in Hk. apply Nat.eqb_eq in Hk. subst i.
    apply CInv_upd with (s := mkstate m o t tr) (i := 0%nat) (q := mkper 0 0 false 4); auto; cbn [thr trace mem pe pr pw pg].
    + intros. apply sett_other; auto.
    + intros j Hj. rewrite owns_seto. unfold owns. cbn [owner]. rewrite Ho. symmetry. apply Nat.eqb_neq. auto.
    + rewrite sett_same, owns_seto. apply wt_asleep.
    + lia.
    + lia.
    + rewrite sett_same. discriminate.
    + lia.
  - (* signal: the waiting thread is the only one that sleeps *)
    inversion Hp; subst; match goal with H : _ = Nat.eqb i 0 |- _ => rename H into Hk end.
    assert (Hz : i <> 0%nat) by (intros ->; discriminate Hk).
    pose proof (HP j) as Hj. match goal with E : t j = _ |- _ => rename E into Ej; rewrite Ej in Hj end.
    inversion Hj; subst. match goal with H : true = Nat.eqb j 0 |- _ => symmetry in H; apply Nat.eqb_eq in H; subst j end.
    destruct (CInv_upd sp N nw (mkstate m o t tr) (mkstate m o (sett t 0%nat (Run (Lock CLOCK (Unlock CLOCK (Emit Released Halt))))) tr) p 0%nat (mkper 0 0 false 3))
      as (p1 & HI1 & Hg1); auto; cbn [thr trace mem pe pr pw pg]; try lia.
    { intros. apply sett_other; auto. }
    { rewrite sett_same. ow 0%nat. apply wt_woken. auto. }
    { rewrite sett_same. discriminate. }
    { rewrite sett_same. discriminate. }
    pose proof HI1 as (HP1 & _). pose proof (HP1 i) as Hp1. cbn [thr mem] in Hp1. rewrite sett_other in Hp1 by auto.
    match goal with E : t i = _ |- _ => rewrite E in Hp1 end. inversion Hp1; subst.
    destruct (CInv_upd sp N nw (mkstate m o (sett t 0%nat (Run (Lock CLOCK (Unlock CLOCK (Emit Released Halt))))) tr)
      (mkstate m o (sett (sett t i (Run (Unlock CLOCK (Goto (Worker n))))) 0%nat (Run (Lock CLOCK (Unlock CLOCK (Emit Released Halt))))) tr)
      p1 i (mkper (Z.of_nat n) (Z.of_nat n) false (wgt n 4))) as (p2 & HI2 & Hg2); auto; cbn [thr trace mem pe pr pw pg]; try lia.
    { intros j' Hn. unfold sett. destruct (Nat.eqb_spec j' 0); auto. destruct (Nat.eqb_spec j' i); congruence. }
    { rewrite sett_other, sett_same by auto. rewrite <- Hk.
      change (owns _ i) with (owns (mkstate m o (sett t 0%nat (Run (Lock CLOCK (Unlock CLOCK (Emit Released Halt))))) tr) i).
      match goal with H : true = owns _ i |- _ => rewrite <- H end. apply wk_unlock. }
    { rewrite sett_same. discriminate. }
    { rewrite sett_same. discriminate. }
    exists p2. split; [exact HI2|]. lia.
  - (* signal, nobody sleeps *)
    inversion Hp; subst; match goal with H : _ = Nat.eqb i 0 |- _ => rename H into Hk end.
    assert (Hz : i <> 0%nat) by (intros ->; discriminate Hk).
    apply CInv_upd with (s := mkstate m o t tr) (i := i) (q := mkper (Z.of_nat n) (Z.of_nat n) false (wgt n 4)); auto; cbn [thr trace mem pe pr pw pg].
    + intros. apply sett_other; auto.
    + rewrite sett_same. ow i. rewrite <- Hk. apply wk_unlock.
    + lia.
    + lia.
    + rewrite sett_other by auto. intros cv l k' E. exfalso. pose proof (HP 0%nat) as Hp0. rewrite E in Hp0. inversion Hp0; subst.
      match goal with H : forall j l k', t j <> _ |- _ => eapply H; exact E end.
    + rewrite sett_other by auto. auto.
    + lia.
  - inversion Hp.
  - (* spurious *)
    inversion Hp; subst; match goal with H : _ = Nat.eqb i 0 |- _ => rename H into Hk end.
    symmetry in Hk. apply Nat.eqb_eq in Hk. subst i.
    apply CInv_upd with (s := mkstate m o t tr) (i := 0%nat) (q := mkper 0 0 false 3); auto; cbn [thr trace mem pe pr pw pg].
    + intros. apply sett_other; auto.
    + rewrite sett_same. ow 0%nat. apply wt_woken. rewrite Hb by auto. discriminate.
    + lia.
    + lia.
    + rewrite sett_same. discriminate.
    + rewrite sett_same. discriminate.
    + lia.
  - inversion Hp.
Qed.
