(* PNorm.v: ordered fields, the Euclidean norm and matrix norms. *)
From Coq Require Import ZArith Lia Ring Field Bool ZifyBool.
From Verif Require Import Mem MView SpecView PView PSub Hoare MFlags MCopy PUpd PCopy
  MNum SpecNum MBlas1 MNorm PSum PBlas1.
Local Open Scope Z_scope.
Local Open Scope prog_scope.

Lemma wp_run : forall T A (c : M T A) L m a m' (Q : A -> (Z -> T) -> Prop),
  c L m = Some (a, m') -> Q a m' -> wp c L m Q.
Proof. intros. exists a, m'. auto. Qed.

Section P.
  Context {T : Type} (K : num T).
  Implicit Types (m : Z -> T) (L : Z -> bool).
  Local Notation "x +' y" := (add K x y) (at level 50, left associativity).
  Local Notation "x -' y" := (sub K x y) (at level 50, left associativity).
  Local Notation "x *' y" := (mul K x y) (at level 40, left associativity).
  Local Notation "x /' y" := (div K x y) (at level 40, left associativity).
  Local Notation "x << y" := (ltb K x y) (at level 70).
  Local Notation "0'" := (zero K).
  Local Notation "1'" := (one K).

  Hypothesis HF : is_field K.
  Hypothesis HO : is_ordered K.
  Let HF' : field_theory (zero K) (one K) (add K) (mul K) (sub K) (opp K) (div K)
    (fun x => div K (one K) x) eq := HF.
  Add Field Kfield : HF'.
  Lemma field_ring : is_ring K.
  Proof. exact (F_R HF). Qed.

  Lemma o_irr : forall a, a << a = false. Proof. apply HO. Qed.
  Lemma o_trans : forall a b c, a << b = true -> b << c = true -> a << c = true.
  Proof. apply (proj1 HO). Qed.
  Lemma o_tot : forall a b, a << b = true \/ a = b \/ b << a = true.
  Proof. apply (proj1 HO). Qed.
  Lemma o_add : forall a b c, a << b = true -> a +' c << b +' c = true. Proof. apply HO. Qed.
  Lemma o_mul : forall a b, 0' << a = true -> 0' << b = true -> 0' << a *' b = true.
  Proof. apply HO. Qed.
  Lemma o_abs : forall a, abs K a = if a << 0' then opp K a else a. Proof. apply HO. Qed.
  Lemma o_nlt : forall a b, a << b = true -> b << a = false.
  Proof. intros. apply lt_nlt; auto. apply HO. Qed.
  Lemma o_opp : forall a, a << 0' = true -> 0' << opp K a = true.
  Proof. intros a H. apply (o_add _ _ (opp K a)) in H. replace (a +' opp K a) with 0' in H by ring.
    replace (0' +' opp K a) with (opp K a) in H by ring. auto. Qed.
  Lemma o_sq : forall a, a <> 0' -> 0' << a *' a = true.
  Proof.
    intros a H. destruct (o_tot 0' a) as [E|[E|E]]; [apply o_mul; auto|congruence|].
    replace (a *' a) with (opp K a *' opp K a) by ring. apply o_mul; apply o_opp; auto.
  Qed.
  Lemma o_one : 0' << 1' = true.
  Proof.
    replace 1' with (1' *' 1') by ring. apply o_sq. apply (F_1_neq_0 HF).
  Qed.
  Lemma o_ne : forall a b, a << b = true -> b <> a.
  Proof. intros a b H ->. rewrite o_irr in H. discriminate. Qed.
  Lemma o_add_pos : forall a b, 0' << a = true -> b << 0' = false -> 0' << a +' b = true.
  Proof.
    intros a b Ha Hb. destruct (o_tot 0' b) as [E|[<-|E]]; [| |congruence].
    - apply (o_trans _ b); auto. apply (o_add 0' a b) in Ha. replace (0' +' b) with b in Ha by ring. auto.
    - replace (a +' 0') with a by ring. auto.
  Qed.
  Lemma o_add_nn : forall a b, a << 0' = false -> b << 0' = false -> a +' b << 0' = false.
  Proof.
    intros a b Ha Hb. destruct (o_tot 0' a) as [E|[<-|E]]; [| |congruence].
    - apply o_nlt, o_add_pos; auto.
    - replace (0' +' b) with b by ring. auto.
  Qed.
  Lemma o_mul_nn : forall a b, a << 0' = false -> b << 0' = false -> a *' b << 0' = false.
  Proof.
    intros a b Ha Hb. destruct (o_tot 0' a) as [E|[<-|E]]; [| |congruence].
    - destruct (o_tot 0' b) as [E'|[<-|E']]; [| |congruence].
      + apply o_nlt, o_mul; auto.
      + replace (a *' 0') with 0' by ring. apply o_irr.
    - replace (0' *' b) with 0' by ring. apply o_irr.
  Qed.
  Lemma o_sq_nn : forall a, a *' a << 0' = false.
  Proof.
    intros a. destruct (o_tot 0' a) as [E|[<-|E]].
    - apply o_nlt, o_sq. apply o_ne; auto.
    - replace (0' *' 0') with 0' by ring. apply o_irr.
    - apply o_nlt, o_sq. intros ->. rewrite o_irr in E. discriminate.
  Qed.
  Lemma abs_nn : forall a, abs K a << 0' = false.
  Proof.
    intros a. rewrite o_abs. destruct (a << 0') eqn:E; auto. apply o_nlt, o_opp; auto.
  Qed.
  Lemma abs_pos : forall a, a <> 0' -> 0' << abs K a = true.
  Proof.
    intros a H. rewrite o_abs. destruct (a << 0') eqn:E; [apply o_opp; auto|].
    destruct (o_tot 0' a) as [?|[?|?]]; congruence.
  Qed.
  Lemma abs_sq : forall a, abs K a *' abs K a = a *' a.
  Proof. intros a. rewrite o_abs. destruct (a << 0'); ring. Qed.
  Lemma abs_of_nn : forall a, a << 0' = false -> abs K a = a.
  Proof. intros a H. rewrite o_abs, H. auto. Qed.

  Lemma vsum_nn : forall n f, (forall k, 0 <= k < n -> f k << 0' = false) -> vsum K n f << 0' = false.
  Proof.
    intros n f. unfold vsum. destruct (Z_le_dec n 0).
    { intros _. replace (Z.to_nat n) with O by lia. apply o_irr. }
    replace n with (Z.of_nat (Z.to_nat n)) by lia. rewrite Nat2Z.id. generalize (Z.to_nat n) as k. clear n n0.
    induction k; intros H; [apply o_irr|]. cbn [bigsum]. apply o_add_nn; [apply IHk; intros; apply H; lia|apply H; lia].
  Qed.

  (* running sum of squares *)
  Definition ssq (sum scale S : T) : Prop :=
    (scale = 0' /\ sum = 1' /\ S = 0') \/
    (0' << scale = true /\ 0' << sum = true /\ sum *' (scale *' scale) = S).

  Lemma ssq_up : forall sum scale S v, ssq sum scale S -> v <> 0' -> scale << abs K v = true ->
    ssq (1' +' sum *' ((scale /' abs K v) *' (scale /' abs K v))) (abs K v) (S +' v *' v).
  Proof.
    intros sum scale S v H Hv Hl. pose proof (abs_pos v Hv) as Hp. pose proof (o_ne _ _ Hp) as Hn.
    right. split; auto. split.
    - apply o_add_pos; [apply o_one|]. apply o_mul_nn; [|apply o_sq_nn].
      destruct H as [(-> & -> & _)|(_ & H & _)]; apply o_nlt; auto. apply o_one.
    - rewrite <- (abs_sq v). transitivity (abs K v *' abs K v +' sum *' (scale *' scale)); [field; auto|].
      destruct H as [(-> & -> & ->)|(_ & _ & H)]; [ring|rewrite H; ring].
  Qed.

  Lemma ssq_same : forall sum scale S v, ssq sum scale S -> v <> 0' -> scale << abs K v = false ->
    ssq (sum +' (abs K v /' scale) *' (abs K v /' scale)) scale (S +' v *' v).
  Proof.
    intros sum scale S v H Hv Hl. pose proof (abs_pos v Hv) as Hp.
    destruct H as [(-> & -> & ->)|(H1 & H2 & H3)]; [congruence|].
    pose proof (o_ne _ _ H1) as Hn. right. split; auto. split.
    - apply o_add_pos; auto. apply o_sq_nn.
    - rewrite <- (abs_sq v), <- H3. field. auto.
  Qed.

  Lemma ssq_end : forall sum scale S, sqrt_ok K -> ssq sum scale S ->
    let r := scale *' sqrt K sum in r << 0' = false /\ r *' r = S.
  Proof.
    intros sum scale S Hs [(-> & -> & ->)|(H1 & H2 & H3)] r; unfold r.
    - replace (0' *' sqrt K 1') with 0' by ring. split; [apply o_irr|ring].
    - destruct (Hs sum) as (A & B); [apply o_nlt; auto|]. split.
      + apply o_mul_nn; auto. apply o_nlt; auto.
      + rewrite <- H3. transitivity (scale *' scale *' (sqrt K sum *' sqrt K sum)); [ring|rewrite B; ring].
  Qed.

  Hypothesis HE : eqb_ok K.
  Lemma neqb : forall a, negb (eqb K a 0') = true -> a <> 0'.
  Proof. intros a H ->. rewrite (proj2 (HE 0' 0') eq_refl) in H. discriminate. Qed.
  Lemma neqb' : forall a, negb (eqb K a 0') = false -> a = 0'.
  Proof. intros a H. apply HE. destruct (eqb K a 0'); auto; discriminate. Qed.

  Lemma nrm2_spec : forall L m x, sqrt_ok K -> isvec x -> wf x -> allocated L x ->
    exists r, armas_nrm2 K x L m = Some (r, m) /\ r << 0' = false /\
      r *' r = vsum K (vlen x) (fun k => velt m x k *' velt m x k).
  Proof.
    intros L m x Hs Vx Wx Lx. pose proof (vlen_nonneg x Wx) as Hn.
    assert (W : wp (armas_nrm2 K x) L m (fun r m' => m' = m /\ r << 0' = false /\
      r *' r = vsum K (vlen x) (fun k => velt m x k *' velt m x k))).
    { unfold armas_nrm2. replace (negb (cols x =? 1) && negb (rows x =? 1)) with false by (destruct Vx; lia).
      change (armas_size x) with (vlen x).
      apply wp_if; intros E0.
      { apply wp_ret. split; auto. split; [apply o_irr|]. rewrite vsum_0 by lia. ring. }
      apply wp_if; intros E1.
      { wbind. eapply wp_rd_v with (x := x) (k := 0); auto; [vdm|rewrite <- vad_eq; lia|].
        apply wp_ret. split; auto. split; [apply abs_nn|].
        replace (vlen x) with (0 + 1) by lia. rewrite vsum_S, vsum_0 by lia. rewrite abs_sq, velt_vad. ring. }
      wbind. apply wp_for1_acc with (I := fun i r m' => m' = m /\
         ssq (fst r) (snd r) (vsum K i (fun k => velt m x k *' velt m x k))).
      - split; auto. left. cbn [fst snd]. rewrite vsum_0 by lia. auto.
      - intros i [sum scale] m' Hi (-> & IH). cbn [fst snd] in IH.
        vrd x. replace (vad x (i + 0)) with (vad x i) by (f_equal; lia). rewrite <- velt_vad.
        rewrite vsum_S by lia. 
        apply wp_if; intros E; [apply neqb in E|apply neqb' in E].
        + cbv zeta. apply wp_if; intros E'; apply wp_ret; (split; [reflexivity|]); cbn [fst snd].
          * apply ssq_up; auto.
          * apply ssq_same; auto.
        + apply wp_ret. split; [reflexivity|]. cbn [fst snd]. rewrite E.
          replace (_ +' 0' *' 0') with (vsum K i (fun k => velt m x k *' velt m x k)) by ring. auto.
      - intros [sum scale] m' (-> & IH). cbn [fst snd] in *. apply wp_ret. split; auto.
        rewrite Z.max_r in IH by lia. apply ssq_end; auto. }
    destruct W as (r & m' & E & -> & H). eauto.
  Qed.

  (* ---- matrix norms ---- *)

  Lemma column_facts : forall L A k, wf A -> allocated L A -> 0 < rows A -> 0 < cols A -> 0 <= k < cols A ->
    let v := armas_column A k in
    isvec v /\ wf v /\ allocated L v /\ vlen v = rows A /\
    (forall m i, 0 <= i < rows A -> velt m v i = elt m A i k).
  Proof.
    intros L A k WA LA Hr Hc Hk v.
    assert (Hn : norm_ix (cols A) k = k) by (unfold norm_ix; dbool; lia).
    destruct (column_shows A k) as (H1 & H2 & H3 & H4 & H5); rewrite ?Hn; auto. rewrite Hn in *. fold v in H1, H2, H3, H4, H5.
    split; [right; auto|]. split; auto. split; [intros a Ha; apply LA, H4; auto|].
    split; [unfold vlen; rewrite H1, H2; lia|].
    intros m i Hi. unfold velt, vec_pos. destruct (rows v =? 1) eqn:E; cbn [fst snd].
    - assert (i = 0) as -> by lia. rewrite H3 by (unfold pos; lia). f_equal; lia.
    - rewrite H3 by (unfold pos; lia). f_equal; lia.
  Qed.

  Lemma row_facts : forall L A k, wf A -> allocated L A -> 0 < rows A -> 0 < cols A -> 0 <= k < rows A ->
    let v := armas_row A k in
    isvec v /\ wf v /\ allocated L v /\ vlen v = cols A /\
    (forall m j, 0 <= j < cols A -> velt m v j = elt m A k j).
  Proof.
    intros L A k WA LA Hr Hc Hk v.
    assert (Hn : norm_ix (rows A) k = k) by (unfold norm_ix; dbool; lia).
    destruct (row_shows A k) as (H1 & H2 & H3 & H4 & H5); rewrite ?Hn; auto. rewrite Hn in *. fold v in H1, H2, H3, H4, H5.
    split; [left; auto|]. split; auto. split; [intros a Ha; apply LA, H4; auto|].
    split; [unfold vlen; rewrite H1, H2; lia|].
    intros m i Hi. unfold velt, vec_pos. destruct (rows v =? 1) eqn:E; cbn [fst snd]; [|lia].
    rewrite H3 by (unfold pos; lia). f_equal; lia.
  Qed.

  Lemma sum_of_sq_wp : forall L X sum scl S m (Q : T * T -> (Z -> T) -> Prop),
    isvec X -> wf X -> allocated L X -> ssq sum scl S ->
    (forall sum' scl', ssq sum' scl' (S +' vsum K (vlen X) (fun k => velt m X k *' velt m X k)) ->
       Q (sum', scl') m) ->
    wp (sum_of_sq K X sum scl) L m Q.
  Proof.
    intros L X sum scl S m Q VX WX LX H0 HQ. pose proof (vlen_nonneg X WX) as Hn.
    unfold sum_of_sq. change (armas_size X) with (vlen X).
    apply wp_for1_acc with (I := fun i r m' => m' = m /\
         ssq (fst r) (snd r) (S +' vsum K i (fun k => velt m X k *' velt m X k))).
    - split; auto. cbn [fst snd]. rewrite vsum_0 by lia. replace (S +' 0') with S by ring. auto.
    - intros i [sum' scale] m' Hi (-> & IH). cbn [fst snd] in IH.
      wbind. eapply wp_run; [apply get_at_unsafe_run; auto|].
      rewrite vsum_S by lia.
      replace (S +' (vsum K i (fun k => velt m X k *' velt m X k) +' velt m X i *' velt m X i))
        with (S +' vsum K i (fun k => velt m X k *' velt m X k) +' velt m X i *' velt m X i) by ring.
      apply wp_if; intros E; [apply neqb in E|apply neqb' in E].
      + cbv zeta. apply wp_if; intros E'; apply wp_ret; (split; [reflexivity|]); cbn [fst snd].
        * apply ssq_up; auto.
        * apply ssq_same; auto.
      + apply wp_ret. split; [reflexivity|]. cbn [fst snd]. rewrite E.
        replace (_ +' 0' *' 0') with (S +' vsum K i (fun k => velt m X k *' velt m X k)) by ring. auto.
    - intros [sum' scale] m' (-> & IH). cbn [fst snd] in *. 
      rewrite Z.max_r in IH by lia. apply HQ; auto.
  Qed.

  Lemma norm_frb_spec : forall L m A, sqrt_ok K -> wf A -> allocated L A -> 0 < rows A -> 0 < cols A ->
    exists r, matrix_norm_frb K A L m = Some (r, m) /\ r << 0' = false /\
      r *' r = msum K (rows A) (cols A) (fun i j => elt m A i j *' elt m A i j).
  Proof.
    intros L m A Hs WA LA Hr Hc.
    assert (W : wp (matrix_norm_frb K A) L m (fun r m' => m' = m /\ r << 0' = false /\
      r *' r = msum K (rows A) (cols A) (fun i j => elt m A i j *' elt m A i j))).
    { unfold matrix_norm_frb, msum. wbind.
      apply wp_for1_acc with (I := fun c r m' => m' = m /\
         ssq (fst r) (snd r) (vsum K c (fun j => vsum K (rows A) (fun i => elt m A i j *' elt m A i j)))).
      - split; auto. left. cbn [fst snd]. rewrite vsum_0 by lia. auto.
      - intros i [sum scale] m' Hi (-> & IH). cbn [fst snd] in IH. cbv zeta.
        destruct (column_facts L A i) as (H1 & H2 & H3 & H4 & H5); auto.
        eapply sum_of_sq_wp; eauto. intros sum' scl' H. cbn [fst snd]. split; auto.
        rewrite vsum_S by lia. rewrite H4 in H.
        rewrite (vsum_ext K (rows A) (fun i0 => elt m A i0 i *' elt m A i0 i)
          (fun k => velt m (armas_column A i) k *' velt m (armas_column A i) k)); auto.
        intros k Hk. cbv beta. rewrite !H5 by auto. reflexivity.
      - intros [sum scale] m' (-> & IH). cbn [fst snd] in *. apply wp_ret. split; auto.
        rewrite Z.max_r in IH by lia. apply ssq_end; auto. }
    destruct W as (r & m' & E & -> & H). eauto.
  Qed.

  (* the largest of f 0 .. f (n-1) by a running maximum from zero *)
  Lemma max_loop : forall L m n (c : Z -> T -> M T T) (f : Z -> T), 0 < n ->
    (forall k, 0 <= k < n -> f k << 0' = false) ->
    (forall k a, 0 <= k < n -> c k a L m = Some (if a << f k then f k else a, m)) ->
    exists j, 0 <= j < n /\ for_acc 0 n 1 c 0' L m = Some (f j, m) /\
      forall k, 0 <= k < n -> f j << f k = false.
  Proof.
    intros L m n c f Hn Hf Hc.
    assert (W : wp (for_acc 0 n 1 c 0') L m (fun r m' => m' = m /\ exists j, 0 <= j < n /\ r = f j /\
       forall k, 0 <= k < n -> r << f k = false)).
    { apply wp_for1_acc with (I := fun i r m' => m' = m /\ (r = 0' \/ exists j, 0 <= j < i /\ r = f j) /\
        r << 0' = false /\ forall k, 0 <= k < i -> r << f k = false).
      - split; auto. split; auto. split; [apply o_irr|]. intros; lia.
      - intros i a m' Hi (-> & H1 & H2 & H3). eapply wp_run; [apply Hc; lia|]. split; auto.
        destruct (a << f i) eqn:E.
        + split; [right; exists i; split; [lia|auto]|]. split; [apply Hf; lia|].
          intros k Hk. assert (k < i \/ k = i) as [Hk'| ->] by lia; [|apply o_irr].
          eapply (nlt_trans K (proj1 HO)); [apply H3; lia|]. apply o_nlt; auto.
        + split; [destruct H1 as [->|(j & Hj & ->)]; [auto|right; exists j; split; [lia|auto]]|].
          split; auto. intros k Hk. assert (k < i \/ k = i) as [Hk'| ->] by lia; auto. apply H3; lia.
      - intros a m' (-> & H1 & H2 & H3). rewrite Z.max_r in * by lia. split; auto.
        destruct H1 as [->|(j & Hj & ->)]; [|exists j; auto].
        exists 0. split; [lia|].
        assert (Z0 : 0' = f 0).
        { destruct (o_tot 0' (f 0)) as [H|[H|H]]; auto.
          - rewrite H3 in H by lia. discriminate.
          - rewrite Hf in H by lia. discriminate. }
        split; auto. }
    destruct W as (r & m' & E & -> & j & Hj & -> & H). exists j. auto.
  Qed.

  Lemma asum_nn : forall L m x n, vsum K n (fun k => abs K (velt m x k)) << 0' = false.
  Proof. intros. apply vsum_nn. intros. apply abs_nn. Qed.

  Lemma norm_one_spec : forall fuel L m blas1min optflags A, wf A -> allocated L A ->
    0 < rows A -> 0 < cols A -> 1 <= blas1min -> rows A < Z.of_nat fuel ->
    let csum := fun j => vsum K (rows A) (fun i => abs K (elt m A i j)) in
    exists j, 0 <= j < cols A /\ matrix_norm_one K fuel blas1min optflags A L m = Some (csum j, m) /\
      forall k, 0 <= k < cols A -> csum j << csum k = false.
  Proof.
    intros fuel L m blas1min optflags A WA LA Hr Hc Hb Hf csum.
    unfold matrix_norm_one. apply max_loop; auto.
    - intros k Hk. unfold csum. apply vsum_nn. intros; apply abs_nn.
    - intros k a Hk. destruct (column_facts L A k) as (H1 & H2 & H3 & H4 & H5); auto.
      rewrite !run_bind. rewrite (asum_spec K field_ring) by (auto; lia). cbv zeta.
      rewrite H4. replace (vsum K (rows A) _) with (csum k).
      2:{ unfold csum. apply vsum_ext. intros i Hi. rewrite H5 by auto. reflexivity. }
      rewrite abs_of_nn; auto. unfold csum. apply vsum_nn. intros; apply abs_nn.
  Qed.

  Lemma norm_inf_spec : forall fuel L m blas1min optflags A, wf A -> allocated L A ->
    0 < rows A -> 0 < cols A -> 1 <= blas1min -> cols A < Z.of_nat fuel ->
    let rsum := fun i => vsum K (cols A) (fun j => abs K (elt m A i j)) in
    exists i, 0 <= i < rows A /\ matrix_norm_inf K fuel blas1min optflags A L m = Some (rsum i, m) /\
      forall k, 0 <= k < rows A -> rsum i << rsum k = false.
  Proof.
    intros fuel L m blas1min optflags A WA LA Hr Hc Hb Hf csum.
    unfold matrix_norm_inf. apply max_loop; auto.
    - intros k Hk. unfold csum. apply vsum_nn. intros; apply abs_nn.
    - intros k a Hk. destruct (row_facts L A k) as (H1 & H2 & H3 & H4 & H5); auto.
      rewrite !run_bind. rewrite (asum_spec K field_ring) by (auto; lia). cbv zeta.
      rewrite H4. replace (vsum K (cols A) _) with (csum k).
      2:{ unfold csum. apply vsum_ext. intros i Hi. rewrite H5 by auto. reflexivity. }
      rewrite abs_of_nn; auto. unfold csum. apply vsum_nn. intros; apply abs_nn.
  Qed.
End P.
