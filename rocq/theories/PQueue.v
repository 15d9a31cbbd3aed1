(* PQueue.v: the task queue keeps the invariant of PThread.v. *)
From Coq Require Import ZArith Lia Bool List Arith.
From Verif Require Import MThread MQueue SpecQueue PThread.
Import ListNotations.
Local Open Scope Z_scope.

Section Queue.
  Variables (cap : Z) (uses : qop -> bool) (strict : bool).
  Hypothesis Hcap : 0 <= cap < 2 ^ 32.
  Hypothesis Huses : forall o, uses o = true -> strict = true -> match o with EnqNowait _ b | Enq _ b => b = true | _ => True end.

  (* the fields describe the ring buffer with items q *)
  Definition RQ (m : Z -> Z) (q : list Z) : Prop :=
    m SIZE = cap /\ m COUNT = Z.of_nat (length q) /\ Z.of_nat (length q) <= cap /\ 0 <= m HEAD /\ 0 <= m TAIL /\
    (0 < cap -> m HEAD < cap /\ m TAIL = (m HEAD + Z.of_nat (length q)) mod cap) /\
    forall k, 0 <= k < Z.of_nat (length q) -> m (ITEM ((m HEAD + k) mod cap)) = nth (Z.to_nat k) q 0.

  Definition linQ (st : status) (q : list Z) (st' : status) (q' : list Z) : Prop :=
    (st' = st /\ q' = q) \/ exists o rc v, st = Called o /\ st' = Done o rc v /\ spec_step cap o q rc v q'.
  Definition evQ (e : qev) (st st' : status) : Prop :=
    match e with
    | ECall o => st = Idle /\ st' = Called o
    | ERet o rc v => st = Done o rc v /\ st' = Idle
    end.
  Definition usable (o : qop) : Prop := strict = true -> match o with EnqNowait _ b | Enq _ b => b = true | _ => True end.
  Definition PoutQ (l : qlab) (st : status) : Prop :=
    match l with
    | Client => st = Idle
    | ReadLoop => st = Called Read
    | WriteLoop v => st = Called (Write v)
    | _ => False
    end.
  Definition PholdQ (l : qlab) (st : status) : Prop :=
    match l with
    | EnqLoop v b => st = Called (Enq v b) /\ usable (Enq v b)
    | DeqLoop b => st = Called (Deq b)
    | _ => False
    end.
  Definition JQ (m : Z -> Z) : bool := if strict then m COUNT =? 0 else true.
  Definition honQ (k : qprog) : Prop :=
    (exists b, k = Goto (DeqLoop b)) \/ k = Unlock MLOCK (Goto ReadLoop) \/ k = Unlock MLOCK (ret WaitWhileEmpty 0 0).

  Notation okQ := (ok (list Z) status MLOCK RQ linQ evQ PoutQ PholdQ EMPTY JQ honQ).

  Lemma setm_same : forall m x v, setm m x v x = v.
  Proof. intros. unfold setm. rewrite Z.eqb_refl. reflexivity. Qed.
  Lemma setm_other : forall m x v y, y <> x -> setm m x v y = m y.
  Proof. intros. unfold setm. destruct (Z.eqb_spec y x); congruence. Qed.

  Lemma u32_small : forall x, 0 <= x < 2 ^ 32 -> u32 x = x.
  Proof. intros. unfold u32. apply Z.mod_small; auto. Qed.

  Lemma RQ_item : forall m q v, RQ m q -> 0 < cap -> Z.of_nat (length q) < cap ->
    RQ (setm (setm (setm m (ITEM (m TAIL)) v) COUNT (m COUNT + 1)) TAIL ((m TAIL + 1) mod cap)) (q ++ [v]).
  Proof.
    intros m q v (H1 & H2 & H3 & H4 & H5 & H6 & H7) Hc Hq. destruct (H6 Hc) as (Hh & Ht).
    assert (L : Z.of_nat (length (q ++ [v])) = Z.of_nat (length q) + 1) by (rewrite app_length; cbn; lia).
    assert (0 <= (m HEAD + Z.of_nat (length q)) mod cap < cap) by (apply Z.mod_pos_bound; lia).
    assert (0 <= (m TAIL + 1) mod cap < cap) by (apply Z.mod_pos_bound; lia).
    unfold RQ. rewrite L.
    assert (EH : setm (setm (setm m (ITEM (m TAIL)) v) COUNT (m COUNT + 1)) TAIL ((m TAIL + 1) mod cap) HEAD = m HEAD).
    { rewrite !setm_other; auto; unfold ITEM, HEAD, COUNT, TAIL in *; lia. }
    rewrite EH, setm_same. repeat split.
    - rewrite !setm_other; auto; unfold ITEM, SIZE, COUNT, TAIL in *; lia.
    - rewrite setm_other by (unfold COUNT, TAIL; lia). rewrite setm_same. lia.
    - lia.
    - lia.
    - lia.
    - lia.
    - rewrite Ht. rewrite Zplus_mod_idemp_l. f_equal. lia.
    - intros k Hk. assert (0 <= (m HEAD + k) mod cap < cap) by (apply Z.mod_pos_bound; lia).
      rewrite setm_other by (unfold ITEM, TAIL in *; lia). rewrite setm_other by (unfold ITEM, COUNT in *; lia).
      destruct (Z.eq_dec k (Z.of_nat (length q))) as [->|Hn].
      + rewrite <- Ht, setm_same. rewrite Nat2Z.id, app_nth2, Nat.sub_diag by lia. reflexivity.
      + rewrite setm_other; [rewrite H7, app_nth1 by lia; reflexivity|]. rewrite Ht. unfold ITEM. intros E.
        assert (E' : (m HEAD + k) mod cap = (m HEAD + Z.of_nat (length q)) mod cap) by lia. clear E.
        assert (Ed : (Z.of_nat (length q) - k) mod cap = 0).
        { replace (Z.of_nat (length q) - k) with ((m HEAD + Z.of_nat (length q)) - (m HEAD + k)) by lia.
          rewrite Zminus_mod, E', Z.sub_diag. apply Z.mod_0_l. lia. }
        rewrite Z.mod_small in Ed; lia.
  Qed.

  Lemma RQ_take : forall m v q, RQ m (v :: q) -> 
    m (ITEM (m HEAD)) = v /\ 0 < cap /\
    RQ (setm (setm (setm m (ITEM (m HEAD)) 0) COUNT (m COUNT - 1)) HEAD ((m HEAD + 1) mod cap)) q.
  Proof.
    intros m v q (H1 & H2 & H3 & H4 & H5 & H6 & H7).
    assert (L : Z.of_nat (length (v :: q)) = Z.of_nat (length q) + 1) by (cbn [length]; lia).
    rewrite L in *. assert (Hc : 0 < cap) by lia. destruct (H6 Hc) as (Hh & Ht). split; [|split; [exact Hc|]].
    { specialize (H7 0 ltac:(lia)). rewrite Z.add_0_r, Z.mod_small in H7 by lia. exact H7. }
    assert (0 <= (m HEAD + 1) mod cap < cap) by (apply Z.mod_pos_bound; lia).
    unfold RQ. rewrite setm_same. repeat split.
    - rewrite !setm_other; auto; unfold ITEM, SIZE, COUNT, HEAD in *; lia.
    - rewrite setm_other by (unfold COUNT, HEAD; lia). rewrite setm_same. lia.
    - lia.
    - lia.
    - rewrite !setm_other; auto; unfold ITEM, TAIL, COUNT, HEAD in *; lia.
    - lia.
    - rewrite !setm_other; unfold ITEM, TAIL, COUNT, HEAD in *; try lia. rewrite Ht. rewrite Zplus_mod_idemp_l. f_equal. lia.
    - intros k Hk. assert (0 <= ((m HEAD + 1) mod cap + k) mod cap < cap) by (apply Z.mod_pos_bound; lia).
      rewrite setm_other by (unfold ITEM, HEAD in *; lia). rewrite setm_other by (unfold ITEM, COUNT in *; lia).
      rewrite Zplus_mod_idemp_l in *.
      replace (m HEAD + 1 + k) with (m HEAD + (1 + k)) in * by lia.
      rewrite setm_other.
      + rewrite H7 by lia. replace (Z.to_nat (1 + k)) with (S (Z.to_nat k)) by lia. reflexivity.
      + unfold ITEM. intros E. assert (E' : (m HEAD + (1 + k)) mod cap = m HEAD mod cap) by (rewrite (Z.mod_small (m HEAD)) by lia; lia).
        assert (Ed : (1 + k) mod cap = 0).
        { replace (1 + k) with ((m HEAD + (1 + k)) - m HEAD) by lia. rewrite Zminus_mod, E', Z.sub_diag. apply Z.mod_0_l. lia. }
        rewrite Z.mod_small in Ed; lia.
  Qed.

  (* taskq_append *)
  Lemma append_ok : forall m q st v k, RQ m q -> Z.of_nat (length q) < cap ->
    (forall m', RQ m' (q ++ [v]) -> okQ (Some (m', q, strict && (m COUNT =? 0))) st (k (m COUNT =? 0))) ->
    okQ (Some (m, q, false)) st (taskq_append cap v k).
  Proof.
    intros m q st v k HR Hq Hk. pose proof HR as (H1 & H2 & H3 & H4 & H5 & H6 & H7).
    assert (Hc : 0 < cap) by lia. destruct (H6 Hc) as (Hh & Ht).
    assert (0 <= (m HEAD + Z.of_nat (length q)) mod cap < cap) by (apply Z.mod_pos_bound; lia).
    unfold taskq_append. cbn [ok]. unfold in_array. replace ((0 <=? m TAIL) && (m TAIL <? cap)) with true by (symmetry; apply andb_true_intro; lia). cbn [ok negb].
    assert (E1 : forall y, y <> ITEM (m TAIL) -> setm m (ITEM (m TAIL)) v y = m y) by (intros; apply setm_other; auto).
    assert (EC : setm m (ITEM (m TAIL)) v COUNT = m COUNT) by (apply E1; unfold ITEM, COUNT; lia).
    rewrite EC. rewrite (setm_other _ COUNT _ TAIL) by (unfold COUNT, TAIL; lia). rewrite (setm_other _ COUNT _ SIZE) by (unfold COUNT, SIZE; lia).
    rewrite (E1 TAIL) by (unfold ITEM, TAIL in *; lia). rewrite (E1 SIZE) by (unfold ITEM, SIZE; lia). rewrite H1.
    destruct (Z.eqb_spec cap 0); [lia|]. cbn [ok]. rewrite !u32_small by lia.
    match goal with |- okQ (Some (?m', _, ?d)) _ _ => replace d with (strict && (m COUNT =? 0)); [apply Hk; apply RQ_item; auto|] end.
    unfold JQ. destruct strict; [|reflexivity]. rewrite EC. rewrite (setm_other _ TAIL _ COUNT) by (unfold COUNT, TAIL; lia). rewrite !setm_same.
    destruct (Z.eqb_spec (m COUNT) 0); destruct (Z.eqb_spec (m COUNT + 1) 0); cbn; try lia; reflexivity.
  Qed.

  (* taskq_remove *)
  Lemma remove_ok : forall m v q st k, RQ m (v :: q) ->
    (forall m' b, RQ m' q -> okQ (Some (m', v :: q, false)) st (k v b)) ->
    okQ (Some (m, v :: q, false)) st (taskq_remove cap k).
  Proof.
    intros m v q st k HR Hk. pose proof HR as (H1 & H2 & H3 & H4 & H5 & H6 & H7).
    destruct (RQ_take m v q HR) as (Ev & Hc & HR').
    assert (L : Z.of_nat (length (v :: q)) = Z.of_nat (length q) + 1) by (cbn [length]; lia). rewrite L in *.
    destruct (H6 Hc) as (Hh & Ht). unfold taskq_remove. cbn [ok]. unfold in_array. replace ((0 <=? m HEAD) && (m HEAD <? cap)) with true by (symmetry; apply andb_true_intro; lia). cbn [ok negb]. rewrite Ev.
    assert (E1 : forall y, y <> ITEM (m HEAD) -> setm m (ITEM (m HEAD)) 0 y = m y) by (intros; apply setm_other; auto).
    assert (EC : setm m (ITEM (m HEAD)) 0 COUNT = m COUNT) by (apply E1; unfold ITEM, COUNT; lia).
    rewrite EC. rewrite (setm_other _ COUNT _ HEAD) by (unfold COUNT, HEAD; lia). rewrite (setm_other _ COUNT _ SIZE) by (unfold COUNT, SIZE; lia).
    rewrite (E1 HEAD) by (unfold ITEM, HEAD in *; lia). rewrite (E1 SIZE) by (unfold ITEM, SIZE; lia). rewrite H1.
    destruct (Z.eqb_spec cap 0); [lia|]. cbn [ok]. rewrite !u32_small by lia.
    match goal with |- okQ (Some (?m', _, ?d)) _ _ => replace d with false; [apply Hk; auto|] end.
    unfold JQ. destruct strict; [|reflexivity]. rewrite EC. rewrite (setm_other _ HEAD _ COUNT) by (unfold COUNT, HEAD; lia). rewrite !setm_same.
    destruct (Z.eqb_spec (m COUNT) 0); destruct (Z.eqb_spec (m COUNT - 1) 0); cbn; try lia; reflexivity.
  Qed.

  Lemma notify_ok : forall m q d st sg b k, (d = true -> sg = true /\ b = true) ->
    okQ (Some (m, q, false)) st k -> okQ (Some (m, q, d)) st (notify sg b k).
  Proof.
    intros m q d st sg b k Hd Hk. unfold notify. destruct d.
    - destruct Hd as (-> & ->); auto.
    - destruct sg, b; auto.
  Qed.

  Lemma ret_ok : forall o rc v, okQ None (Done o rc v) (ret o rc v).
  Proof. intros. unfold ret. cbn [ok]. split; [reflexivity|]. exists Idle. repeat split. Qed.

  (* the moment of a call is the release of the mutex *)
  Lemma put_ok : forall m q o v x b k, RQ m q -> Z.of_nat (length q) < cap -> (strict = true -> b = true) ->
    (forall q', puts cap x q 0 0 q' -> spec_step cap o q 0 v q') ->
    okQ None (Done o 0 v) k ->
    okQ (Some (m, q, false)) (Called o) (taskq_append cap x (fun sg => notify sg b (Unlock MLOCK k))).
  Proof.
    intros m q o v x b k HR Hq Hb Hs Hk. apply append_ok; auto. intros m' HR'. apply notify_ok.
    - intros E. apply andb_prop in E. destruct E as (E1 & E2). auto.
    - cbn [ok]. split; [reflexivity|]. split; [reflexivity|]. exists (Done o 0 v), (q ++ [x]). split; [|auto].
      right. exists o, 0, v. repeat split. apply Hs. repeat split; auto.
  Qed.

  Lemma take_ok : forall m v q o b k, RQ m (v :: q) -> spec_step cap o (v :: q) 0 v q ->
    okQ None (Done o 0 v) (k 0 v) ->
    okQ (Some (m, v :: q, false)) (Called o) (taskq_remove cap (fun v sg => notify sg b (Unlock MLOCK (k 0 v)))).
  Proof.
    intros m v q o b k HR Hs Hk. apply remove_ok; auto. intros m' sg HR'. apply notify_ok; [discriminate|].
    cbn [ok]. split; [reflexivity|]. split; [reflexivity|]. exists (Done o 0 v), q. split; [|auto].
    right. exists o, 0, v. repeat split. auto.
  Qed.

  Lemma unlock_done : forall m q o rc v k, RQ m q -> spec_step cap o q rc v q -> okQ None (Done o rc v) k ->
    okQ (Some (m, q, false)) (Called o) (Unlock MLOCK k).
  Proof.
    intros m q o rc v k HR Hs Hk. cbn [ok]. split; [reflexivity|]. split; [reflexivity|]. exists (Done o rc v), q. split; [|auto].
    right. exists o, rc, v. repeat split. auto.
  Qed.
  Lemma unlock_stay : forall m q st k, RQ m q -> okQ None st k -> okQ (Some (m, q, false)) st (Unlock MLOCK k).
  Proof.
    intros m q st k HR Hk. cbn [ok]. split; [reflexivity|]. split; [reflexivity|]. exists st, q. split; [|auto]. left. auto.
  Qed.

  Lemma enqueue_nowait_ok : forall o x b k, (strict = true -> b = true) ->
    (forall q q', puts cap x q 0 0 q' -> spec_step cap o q 0 0 q') ->
    okQ None (Done o 0 0) (k 0) ->
    (forall m q, RQ m q -> Z.of_nat (length q) = cap -> okQ (Some (m, q, false)) (Called o) (Unlock MLOCK (k (-1)))) ->
    okQ None (Called o) (taskq_enqueue_nowait cap x b k).
  Proof.
    intros o x b k Hb Hs H0 H1. unfold taskq_enqueue_nowait. cbn [ok]. split; [reflexivity|]. split; [reflexivity|]. intros m q HR.
    pose proof HR as (E1 & E2 & E3 & _). rewrite E1, E2. destruct (Z.eqb_spec (Z.of_nat (length q)) cap) as [E|E].
    - apply H1; auto.
    - eapply put_ok; eauto. lia.
  Qed.

  Lemma dequeue_nowait_ok : forall o b k,
    (forall v q, okQ None (Done o 0 v) (k 0 v) /\ spec_step cap o (v :: q) 0 v q) ->
    (forall m, RQ m [] -> okQ (Some (m, [], false)) (Called o) (Unlock MLOCK (k (-1) 0))) ->
    okQ None (Called o) (taskq_dequeue_nowait cap b k).
  Proof.
    intros o b k H0 H1. unfold taskq_dequeue_nowait. cbn [ok]. split; [reflexivity|]. split; [reflexivity|]. intros m q HR.
    pose proof HR as (E1 & E2 & E3 & _). rewrite E2. destruct q as [|v q].
    - apply H1; auto.
    - replace (Z.of_nat (length (v :: q)) =? 0) with false by (symmetry; apply Z.eqb_neq; cbn [length]; lia).
      destruct (H0 v q). apply take_ok; auto.
  Qed.

  (* the functions that wait once *)
  Lemma wait_if_ok : forall st st' cv cond k,
    (forall m q, RQ m q -> okQ (Some (m, q, false)) st (Unlock MLOCK k)) -> st' = st ->
    (honQ (Unlock MLOCK k) -> cv = EMPTY /\ forall c s, cond c s = (c =? 0)) ->
    okQ None st (wait_if cv cond k).
  Proof.
    intros st st' cv cond k HU _ Hh. unfold wait_if. cbn [ok]. split; [reflexivity|]. split; [reflexivity|]. intros m q HR.
    destruct (cond (m COUNT) (m SIZE)) eqn:E; [|apply HU; auto].
    change (MLOCK = MLOCK /\ false = false /\ RQ m q /\ (honQ (Unlock MLOCK k) -> cv = EMPTY /\ JQ m = true) /\
      forall m g, RQ m g -> okQ (Some (m, g, false)) st (Unlock MLOCK k)).
    repeat (split; [reflexivity||exact HR|]). split; [|exact HU]. intros Hk. destruct (Hh Hk) as (-> & Hcond). split; [reflexivity|].
    unfold JQ. destruct strict; auto. rewrite <- E. symmetry. apply Hcond.
  Qed.

  Lemma call_ok : forall o, uses o = true -> okQ None Idle (call cap o).
  Proof.
    intros o Ho. pose proof (Huses o Ho) as Hu. unfold call. cbn [ok]. split; [reflexivity|]. exists (Called o). split; [split; reflexivity|].
    destruct o.
    - apply enqueue_nowait_ok; auto; [left; auto|apply ret_ok|]. intros m q HR E. apply unlock_done with (rc := -1) (v := 0); auto; [|apply ret_ok].
      right. auto.
    - cbn [ok]. split; [reflexivity|split; [reflexivity|]]. intros m g HR. split; [exact HR|split; [split; [reflexivity|exact Hu]|reflexivity]].
    - apply dequeue_nowait_ok; [intros v q; split; [apply ret_ok|left; split; auto]|]. intros m HR.
      apply unlock_done with (rc := -1) (v := 0); auto; [|apply ret_ok]. right. auto.
    - cbn [ok]. split; [reflexivity|split; [reflexivity|]]. intros m g HR. split; [exact HR|split; reflexivity].
    - apply wait_if_ok with (st' := Called WaitUntilEmpty); auto.
      + intros. apply unlock_done with (rc := 0) (v := 0); [auto|repeat split|apply ret_ok].
      + intros [(b & E)|[E|E]]; discriminate E.
    - apply wait_if_ok with (st' := Called WaitOnEmpty); auto.
      + intros. apply unlock_done with (rc := 0) (v := 0); [auto|repeat split|apply ret_ok].
    - apply wait_if_ok with (st' := Called WaitWhileEmpty); auto.
      + intros. apply unlock_done with (rc := 0) (v := 0); [auto|repeat split|apply ret_ok].
    - apply wait_if_ok with (st' := Called WaitOnFull); auto.
      + intros. apply unlock_done with (rc := 0) (v := 0); [auto|repeat split|apply ret_ok].
      + intros [(b & E)|[E|E]]; discriminate E.
    - apply wait_if_ok with (st' := Called WaitWhileFull); auto.
      + intros. apply unlock_done with (rc := 0) (v := 0); [auto|repeat split|apply ret_ok].
      + intros [(b & E)|[E|E]]; discriminate E.
    - cbn [ok]. reflexivity.
    - cbn [ok]. reflexivity.
  Qed.

  Lemma out_ok : forall l st, PoutQ l st -> okQ None st (qcode cap uses l).
  Proof.
    intros l st H. destruct l; cbn in H; try tauto; subst st; cbn [qcode].
    - cbn [ok]. split; [reflexivity|]. intros o. destruct (uses o) eqn:E; [apply call_ok; auto|reflexivity].
    - apply dequeue_nowait_ok.
      + intros v q. split; [|split; reflexivity]. apply ret_ok.
      + intros m HR. apply unlock_stay; auto. change (okQ None (Called Read) (taskq_wait_onempty (Goto ReadLoop))).
        apply wait_if_ok with (st' := Called Read); auto. intros. apply unlock_stay; auto. reflexivity.
    - apply enqueue_nowait_ok; auto; [apply ret_ok|].
      intros m q HR E. apply unlock_stay; auto. change (okQ None (Called (Write v)) (taskq_wait_onfull (Goto (WriteLoop v)))).
      apply wait_if_ok with (st' := Called (Write v)); auto; [intros; apply unlock_stay; auto; reflexivity|].
      intros [(b & E1)|[E1|E1]]; discriminate E1.
  Qed.

  Lemma hold_ok : forall l st m q, RQ m q -> PholdQ l st -> okQ (Some (m, q, false)) st (qcode cap uses l).
  Proof.
    intros l st m q HR H. destruct l; cbn in H; try tauto; cbn [qcode].
    - destruct H as (-> & Hu). unfold taskq_enqueue_loop. cbn [ok]. pose proof HR as (E1 & E2 & E3 & _). rewrite E1, E2.
      destruct (Z.eqb_spec (Z.of_nat (length q)) cap) as [E|E].
      + cbn [ok]. repeat (split; [reflexivity||exact HR|]). split; [|intros m' g' HR'; split; [exact HR'|split; [split; [reflexivity|exact Hu]|reflexivity]]]. intros [(b' & E')|[E'|E']]; discriminate E'.
      + eapply put_ok with (v := 0); eauto; [lia|apply ret_ok].
    - subst st. unfold taskq_dequeue_loop. cbn [ok]. pose proof HR as (E1 & E2 & E3 & _). rewrite E2. destruct q as [|v q].
      + cbn [ok length Z.of_nat Z.eqb]. repeat (split; [reflexivity||exact HR|]). split; [|intros m' g' HR'; split; [exact HR'|split; reflexivity]]. intros _. split; [reflexivity|].
        unfold JQ. destruct strict; auto. rewrite E2. reflexivity.
      + replace (Z.of_nat (length (v :: q)) =? 0) with false by (symmetry; apply Z.eqb_neq; cbn [length]; lia).
        apply (take_ok m v q (Deq b) b (fun rc v => ret (Deq b) rc v)); auto; [split; reflexivity|apply ret_ok].
  Qed.

  Definition QInv := MInv (list Z) status MLOCK RQ linQ evQ PoutQ PholdQ [] Idle EMPTY JQ honQ.

  Lemma QInv_exec : forall sp m s, exec (qcode cap uses) sp (qinit m cap) s -> exists S q d, QInv s S q d.
  Proof.
    intros sp m s H. eapply MInv_exec with (S0 := fun _ => Idle); [exact out_ok|exact hold_ok| |exact H].
    split; [constructor|split].
    - intros _. split; [|reflexivity]. cbn [mem qinit]. unfold RQ. cbn [length Z.of_nat]. change (setm (setm (setm (setm m SIZE cap) COUNT 0) HEAD 0) TAIL 0 HEAD) with 0.
      change (setm (setm (setm (setm m SIZE cap) COUNT 0) HEAD 0) TAIL 0 TAIL) with 0.
      repeat split; try reflexivity; try lia.
    - intros i. reflexivity.
  Qed.

  Lemma glegal_legal : forall tr S q, glegal (list Z) status linQ evQ [] Idle tr S q ->
    exists h S', (forall i, S' i = S i) /\ legal cap h S' q /\ seen h = tr.
  Proof.
    intros tr S q H. induction H as [|tr S q i e st' H (h & S' & ES & HL & E) He|tr S q i st' q' H (h & S' & ES & HL & E) He].
    - exists [], (fun _ => Idle). repeat split. constructor.
    - destruct e as [o|o rc v]; destruct He as (E1 & ->); rewrite <- ES in E1.
      + exists ((i, HCall o) :: h), (supd S i (Called o)). split; [auto|split]; [|cbn [seen]; congruence].
        econstructor; eauto. split; [apply supd_same|intros; rewrite supd_other by auto; auto].
      + exists ((i, HRet o rc v) :: h), (supd S i Idle). split; [auto|split]; [|cbn [seen]; congruence].
        econstructor; eauto. split; [apply supd_same|intros; rewrite supd_other by auto; auto].
    - destruct He as [(-> & ->)|(o & rc & v & E1 & -> & Hs)].
      + exists h, S'. split; [|auto]. intros j. destruct (Nat.eq_dec j i) as [->|]; [rewrite supd_same|rewrite supd_other]; auto.
      + rewrite <- ES in E1. exists ((i, HDo o rc v) :: h), (supd S i (Done o rc v)). split; [auto|split]; [|exact E].
        econstructor; eauto. split; [apply supd_same|intros; rewrite supd_other by auto; auto].
  Qed.
End Queue.
