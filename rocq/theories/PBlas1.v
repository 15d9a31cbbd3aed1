(* PBlas1.v: vector functions. *)
From Coq Require Import ZArith Lia Ring Bool ZifyBool.
From Verif Require Import Mem MView SpecView PView PSub Hoare MFlags MCopy PUpd PCopy
  MNum SpecNum MBlas1 PSum.
Local Open Scope Z_scope.
Local Open Scope prog_scope.

Ltac vrd X := wbind; eapply wp_rd_v with (x := X);
  [eassumption|eassumption|eassumption| |apply vad_eq|]; [unfold vdom; lia|cbv beta zeta].
Ltac vdm := unfold vdom; cbv beta; intros; lia.

(* a loop with a negative bound does nothing *)
Lemma wp_unroll4_neg : forall T (b4 f : Z -> M T unit) L N m (Q : unit -> (Z -> T) -> Prop),
  N < 0 -> Q tt m -> wp (unroll4 N b4 f) L m Q.
Proof.
  intros T b4 f L N m Q HN HQ. unfold unroll4, unroll4_acc, for_acc.
  rewrite trips_0, loop_end_0 by lia. wbind. cbn [iter]. apply wp_ret.
  unfold tail3. replace (N - 0 =? 3) with false by lia.
  replace (N - 0 =? 2) with false by lia. replace (N - 0 =? 1) with false by lia. apply wp_ret; auto.
Qed.

Section P.
  Context {T : Type} (K : num T).
  Implicit Types (m : Z -> T) (L : Z -> bool).
  Local Notation "x +' y" := (add K x y) (at level 50, left associativity).
  Local Notation "x -' y" := (sub K x y) (at level 50, left associativity).
  Local Notation "x *' y" := (mul K x y) (at level 40, left associativity).

  Lemma vlen_nonneg : forall x, wf x -> 0 <= vlen x.
  Proof. intros x (?&?&?). unfold vlen. nia. Qed.

  (* ---- axpby ---- *)
  Lemma axpby_unsafe_wp : forall L beta y alpha x m0 (Q : unit -> (Z -> T) -> Prop),
    isvec y -> isvec x -> wf y -> wf x -> allocated L y -> allocated L x -> disjoint y x ->
    vlen y <= vlen x ->
    (forall m', upd m0 (vad y) (fun k => m0 (vad y k) *' beta +' alpha *' m0 (vad x k)) (vdom y) m' -> Q tt m') ->
    wp (armas_axpby_unsafe K beta y alpha x) L m0 Q.
  Proof.
    intros L beta y alpha x m0 Q Vy Vx Wy Wx Ly Lx D Hl HQ. unfold armas_axpby_unsafe.
    pose proof (vlen_nonneg y Wy) as Hn. change (armas_size y) with (vlen y).
    apply wp_unroll4 with (I := fun n m => upd m0 (vad y)
       (fun k => m0 (vad y k) *' beta +' alpha *' m0 (vad x k)) (fun k => 0 <= k < n /\ k < vlen y) m); auto.
    - apply upd_nil. intros; lia.
    - intros i m Hi Hi3 Hu.
      assert (Hx : forall m' S, upd m0 (vad y) (fun k => m0 (vad y k) *' beta +' alpha *' m0 (vad x k)) S m' ->
                (forall q, S q -> vdom y q) -> forall k, vdom y k -> m' (vad x k) = m0 (vad x k)).
      { intros m' S Hu' HS k Hk. eapply vupd_disj; eauto. apply vad_cell; auto. unfold vdom in *; lia. }
      assert (Hy : forall k, i <= k < vlen y -> m (vad y k) = m0 (vad y k)).
      { intros k Hk. eapply vupd_old; eauto; vdm. }
      do 4 (vrd y).
      vrd x. wbind. eapply wp_wr_v with (k := i + 0); [exact Hu|eassumption|eassumption|eassumption|vdm|vdm|apply vad_eq| |].
      { cbv beta. rewrite Hy by lia. rewrite (Hx _ _ Hu) by vdm. reflexivity. }
      clear Hu; intros m1 Hu.
      vrd x. wbind. eapply wp_wr_v with (k := i + 1); [exact Hu|eassumption|eassumption|eassumption|vdm|vdm|apply vad_eq| |].
      { cbv beta. rewrite Hy by lia. rewrite (Hx _ _ Hu) by vdm. reflexivity. }
      clear Hu; intros m2 Hu.
      vrd x. wbind. eapply wp_wr_v with (k := i + 2); [exact Hu|eassumption|eassumption|eassumption|vdm|vdm|apply vad_eq| |].
      { cbv beta. rewrite Hy by lia. rewrite (Hx _ _ Hu) by vdm. reflexivity. }
      clear Hu; intros m3 Hu.
      vrd x. eapply wp_wr_v with (k := i + 3); [exact Hu|eassumption|eassumption|eassumption|vdm|vdm|apply vad_eq| |].
      { cbv beta. rewrite Hy by lia. rewrite (Hx _ _ Hu) by vdm. reflexivity. }
      clear Hu; intros m4 Hu. uext Hu.
    - intros i m Hi Hu. vrd y. vrd x.
      eapply wp_wr_v with (k := i); [exact Hu|eassumption|eassumption|eassumption|vdm|vdm|apply vad_eq| |].
      { cbv beta. f_equal; [f_equal|f_equal].
        - eapply vupd_old; eauto; vdm.
        - eapply vupd_disj; eauto; try vdm. apply vad_cell; auto; vdm. }
      clear Hu; intros m4 Hu. uext Hu.
    - intros m Hu. apply HQ. uext Hu.
  Qed.

  (* ---- vec_scale, vec_add ---- *)
  Lemma vec_modify_wp : forall L X op N m0 (Q : unit -> (Z -> T) -> Prop),
    isvec X -> wf X -> allocated L X -> N <= vlen X ->
    (forall m', upd m0 (vad X) (fun k => op (m0 (vad X k))) (fun k => 0 <= k < N) m' -> Q tt m') ->
    wp (vec_modify X op N) L m0 Q.
  Proof.
    intros L X op N m0 Q VX WX LX HN HQ. unfold vec_modify.
    destruct (Z_lt_dec N 0) as [Hneg|Hpos].
    { apply wp_unroll4_neg; auto. apply HQ. apply upd_nil. intros; lia. }
    assert (Hstep : forall m i S (Q' : unit -> (Z -> T) -> Prop), 
       upd m0 (vad X) (fun k => op (m0 (vad X k))) S m -> 0 <= i < N ->
       (forall k, S k <-> 0 <= k < i) ->
       (forall m', upd m0 (vad X) (fun k => op (m0 (vad X k))) (fun k => 0 <= k < i + 1) m' -> Q' tt m') ->
       wp (modify (elems X + i * vinc X) op) L m Q').
    { intros m i S Q' Hu Hi HS HQ'. unfold modify. vrd X.
      eapply wp_wr_v with (k := i); [exact Hu|eassumption|eassumption|eassumption|intros q Hq; apply HS in Hq; vdm|vdm|apply vad_eq| |].
      - cbv beta. f_equal. eapply vupd_old; eauto; try vdm. intros q Hq; apply HS in Hq; vdm. intros Hc; apply HS in Hc; lia.
      - intros m' Hu'. apply HQ'. eapply upd_ext; [|exact Hu']. intros k; cbv beta. rewrite HS. lia. }
    apply wp_unroll4 with (I := fun n m => upd m0 (vad X) (fun k => op (m0 (vad X k))) (fun k => 0 <= k < n) m);
      auto; try lia.
    - apply upd_nil. intros; lia.
    - intros i m Hi Hi3 Hu.
      wbind. eapply Hstep; [exact Hu|lia|intros; lia|]. clear m Hu; intros m Hu.
      wbind. eapply Hstep; [exact Hu|lia|intros; lia|]. clear m Hu; intros m Hu.
      wbind. eapply Hstep; [exact Hu|lia|intros; lia|]. clear m Hu; intros m Hu.
      eapply Hstep; [exact Hu|lia|intros; lia|]. clear m Hu; intros m Hu. uext Hu.
    - intros i m Hi Hu. eapply Hstep; [exact Hu|lia|intros; lia|]. auto.
  Qed.

  Lemma scale_spec : forall L m x alpha, wf x -> allocated L x -> isvec x ->
    exists m', armas_scale K x alpha L m = Some (0, m') /\
      (forall k, 0 <= k < vlen x -> velt m' x k = velt m x k *' alpha) /\ only_changes x m m'.
  Proof.
    intros L m x alpha Wx Lx Vx.
    assert (W : wp (armas_scale K x alpha) L m (fun r m' => r = 0 /\
      (forall k, 0 <= k < vlen x -> velt m' x k = velt m x k *' alpha) /\ only_changes x m m')).
    { unfold armas_scale. change (armas_size x) with (vlen x). apply isvector_isvec in Vx as E. rewrite E. cbn [negb].
      apply wp_if; intros E'.
      - apply wp_ret. split; [auto|split; [intros; lia|intros a _; reflexivity]].
      - wbind. apply vec_modify_wp; auto; try lia. intros m' Hu. apply wp_ret. split; [auto|split].
        + intros k Hk. apply (upd_new _ _ _ _ _ k Hu Hk).
        + eapply vupd_only; eauto. }
    destruct W as (r & m' & E & -> & H1 & H2). eauto.
  Qed.

  (* ---- read-only loops ---- *)

  Section Ring.
    Hypothesis HR : is_ring K.
    Let HR' : ring_theory (zero K) (one K) (add K) (mul K) (sub K) (opp K) eq := HR.
    Add Ring Kring : HR'.

    Lemma axpby_spec : forall L m beta y alpha x,
      isvec y -> isvec x -> wf y -> wf x -> allocated L y -> allocated L x -> disjoint y x ->
      vlen y = vlen x ->
      exists m', armas_axpby K beta y alpha x L m = Some (0, m') /\
        (forall k, 0 <= k < vlen y -> velt m' y k = beta *' velt m y k +' alpha *' velt m x k) /\
        only_changes y m m'.
    Proof.
      intros L m beta y alpha x Vy Vx Wy Wx Ly Lx D Hl.
      assert (W : wp (armas_axpby K beta y alpha x) L m (fun r m' => r = 0 /\
        (forall k, 0 <= k < vlen y -> velt m' y k = beta *' velt m y k +' alpha *' velt m x k) /\
        only_changes y m m')).
      { unfold armas_axpby. apply isvector_isvec in Vx as E1. apply isvector_isvec in Vy as E2.
        rewrite E1, E2. cbn [andb negb]. change (armas_size x) with (vlen x). change (armas_size y) with (vlen y).
        rewrite Hl, Z.eqb_refl. cbn [negb]. wbind. apply axpby_unsafe_wp; auto; try lia.
        intros m' Hu. apply wp_ret. split; [auto|split].
        - intros k Hk. rewrite !velt_vad. rewrite (upd_new _ _ _ _ _ k Hu) by vdm. ring.
        - eapply vupd_only; eauto. }
      destruct W as (r & m' & E & -> & H1 & H2). eauto.
    Qed.

    Lemma vec_dot_wp : forall L X Y n m (Q : T -> (Z -> T) -> Prop),
      isvec X -> isvec Y -> wf X -> wf Y -> allocated L X -> allocated L Y ->
      0 <= n <= vlen X -> n <= vlen Y ->
      Q (vsum K n (fun k => velt m X k *' velt m Y k)) m ->
      wp (vec_dot K X Y n) L m Q.
    Proof.
      intros L X Y n m Q VX VY WX WY LX LY Hn Hn' HQ. unfold vec_dot. wbind.
      set (f := fun k => velt m X k *' velt m Y k) in *.
      apply wp_unroll4_acc with (I := fun i c m' => m' = m /\
        let '(c0, c1, c2, c3) := c in c0 +' c1 +' c2 +' c3 = vsum K i f); auto; try lia.
      - split; auto. rewrite vsum_0 by lia. ring.
      - intros i [[[c0 c1] c2] c3] m' Hi Hi3 (-> & IH). do 4 (vrd X). do 4 (vrd Y). apply wp_ret.
        split; auto.
        replace (i + 4) with (i + 0 + 1 + 1 + 1 + 1) by lia. rewrite !vsum_S by lia.
        replace (i + 0 + 1 + 1 + 1) with (i + 3) by lia. replace (i + 0 + 1 + 1) with (i + 2) by lia.
        replace (i + 0 + 1) with (i + 1) by lia.
        replace (vsum K (i + 0) f) with (c0 +' c1 +' c2 +' c3) by (rewrite IH; f_equal; lia).
        unfold f. rewrite !velt_vad. ring.
      - intros i [[[c0 c1] c2] c3] m' Hi (-> & IH). vrd X. vrd Y. apply wp_ret.
        destruct (n - i =? 3), (n - i =? 2); (split; [reflexivity|]); rewrite vsum_S, <- IH by lia;
          unfold f; rewrite !velt_vad; ring.
      - intros [[[c0 c1] c2] c3] m' (-> & IH). apply wp_ret. rewrite IH. exact HQ.
    Qed.

    (* facts on subvectors *)
    Lemma subv : forall L x n len, isvec x -> wf x -> allocated L x -> 0 <= n -> 0 <= len ->
      n + len <= vlen x ->
      let v := armas_subvector_unsafe x n len in
      isvec v /\ wf v /\ allocated L v /\ vlen v = len /\
      (forall m k, 0 <= k < len -> velt m v k = velt m x (n + k)).
    Proof.
      intros L x n len Vx Wx Lx Hn Hl Hnl v.
      destruct (subvec_unsafe_vshows x n len Vx Wx Hn Hl Hnl) as (H1 & H2 & H3 & H4 & H5).
      fold v in H1, H2, H3, H4, H5. split; [auto|]. split; [apply H5|]. split; [|split; [auto|]].
      - intros a Ha. apply H4 in Ha as (k & Hk & ->). apply Lx, vec_cell; auto. exists k. split; auto. lia.
      - intros m k Hk. apply (H3 T m k Hk).
    Qed.

    Lemma vec_dot_sub : forall L X Y n len m (Q : T -> (Z -> T) -> Prop),
      isvec X -> isvec Y -> wf X -> wf Y -> allocated L X -> allocated L Y ->
      0 <= n -> 0 <= len -> n + len <= vlen X -> n + len <= vlen Y ->
      Q (vsum K len (fun k => velt m X (n + k) *' velt m Y (n + k))) m ->
      wp (vec_dot K (armas_subvector_unsafe X n len) (armas_subvector_unsafe Y n len) len) L m Q.
    Proof.
      intros L X Y n len m Q VX VY WX WY LX LY Hn Hl HX HY HQ.
      destruct (subv L X n len) as (A1 & A2 & A3 & A4 & A5); auto.
      destruct (subv L Y n len) as (B1 & B2 & B3 & B4 & B5); auto.
      apply vec_dot_wp; auto; try lia.
      erewrite vsum_ext; [exact HQ|]. intros k Hk. cbv beta. rewrite A5, B5 by lia. reflexivity.
    Qed.

    Lemma quot_facts : forall n, 0 <= n -> Z.quot n 2 = n / 2 /\ Z.quot n 4 = n / 4 /\
      0 <= n / 4 <= n / 2 /\ n / 2 <= n /\ 0 <= n - n / 2 - n / 4 /\ n / 4 <= n - n / 2 /\
      (4 <= n -> 1 <= n / 4 /\ n / 2 - n / 4 < n /\ n - n / 2 - n / 4 < n).
    Proof.
      intros n H. rewrite !Z.quot_div_nonneg by lia.
      pose proof (Z.div_mod n 2 ltac:(lia)). pose proof (Z.mod_pos_bound n 2 ltac:(lia)).
      pose proof (Z.div_mod n 4 ltac:(lia)). pose proof (Z.mod_pos_bound n 4 ltac:(lia)). lia.
    Qed.

    Lemma vec_dot_rec_wp : forall fuel L X Y n minsz m (Q : T -> (Z -> T) -> Prop),
      isvec X -> isvec Y -> wf X -> wf Y -> allocated L X -> allocated L Y ->
      0 <= n <= vlen X -> n <= vlen Y -> 1 <= minsz -> n < Z.of_nat fuel ->
      Q (vsum K n (fun k => velt m X k *' velt m Y k)) m ->
      wp (vec_dot_recursive K fuel X Y n minsz) L m Q.
    Proof.
      induction fuel as [|fuel IH]; intros L X Y n minsz m Q VX VY WX WY LX LY Hn Hn' Hm Hf HQ; [lia|].
      cbn [vec_dot_recursive]. cbv zeta.
      destruct (quot_facts n ltac:(lia)) as (-> & -> & F1 & F2 & F3 & F4 & F5).
      assert (S2 : vsum K n (fun k => velt m X k *' velt m Y k) =
         vsum K (n / 2) (fun k => velt m X (0 + k) *' velt m Y (0 + k)) +'
         vsum K (n - n / 2) (fun k => velt m X (n / 2 + k) *' velt m Y (n / 2 + k))).
      { replace n with (n / 2 + (n - n / 2)) at 1 by lia. rewrite (vsum_split K HR) by lia. reflexivity. }
      assert (S4 : vsum K n (fun k => velt m X k *' velt m Y k) =
         vsum K (n / 4) (fun k => velt m X (0 + k) *' velt m Y (0 + k)) +'
         vsum K (n / 2 - n / 4) (fun k => velt m X (n / 4 + k) *' velt m Y (n / 4 + k)) +'
         vsum K (n / 4) (fun k => velt m X (n / 2 + k) *' velt m Y (n / 2 + k)) +'
         vsum K (n - n / 2 - n / 4) (fun k => velt m X (n / 2 + n / 4 + k) *' velt m Y (n / 2 + n / 4 + k))).
      { replace n with (n / 4 + ((n / 2 - n / 4) + (n / 4 + (n - n / 2 - n / 4)))) at 1 by lia.
        rewrite !(vsum_split K HR) by lia. cbn -[Z.div Z.add Z.sub].
        replace (n / 4 + (n / 2 - n / 4)) with (n / 2) by lia.
        assert (E : forall a b c d : T, a +' (b +' (c +' d)) = a +' b +' c +' d) by (intros; ring).
        rewrite E. f_equal; [f_equal|].
        - apply (vsum_ext K). intros k Hk. f_equal; f_equal; lia.
        - apply (vsum_ext K). intros k Hk. f_equal; f_equal; lia. }
      apply wp_if; intros E1; [apply vec_dot_wp; auto|].
      apply wp_if; intros E2.
      { wbind. apply vec_dot_sub; auto; try lia. wbind. apply vec_dot_sub; auto; try lia.
        apply wp_ret. rewrite <- S2. exact HQ. }
      apply wp_if; intros E3.
      { wbind. apply vec_dot_sub; auto; try lia. wbind. apply vec_dot_sub; auto; try lia.
        wbind. apply vec_dot_sub; auto; try lia. wbind. apply vec_dot_sub; auto; try lia.
        apply wp_ret. rewrite <- S4. exact HQ. }
      assert (4 <= n). { pose proof (Z.div_mod n 4 ltac:(lia)). pose proof (Z.mod_pos_bound n 4 ltac:(lia)). lia. }
      destruct (F5 ltac:(lia)) as (G1 & G2 & G3).
      assert (R : forall a len (Q' : T -> (Z -> T) -> Prop), 0 <= a -> 0 <= len < n -> a + len <= n ->
         Q' (vsum K len (fun k => velt m X (a + k) *' velt m Y (a + k))) m ->
         wp (vec_dot_recursive K fuel (armas_subvector_unsafe X a len) (armas_subvector_unsafe Y a len) len minsz) L m Q').
      { intros a len Q' Ha Hlen Hal HQ'.
        destruct (subv L X a len) as (A1 & A2 & A3 & A4 & A5); auto; try lia.
        destruct (subv L Y a len) as (B1 & B2 & B3 & B4 & B5); auto; try lia.
        apply IH; auto; try lia.
        erewrite vsum_ext; [exact HQ'|]. intros k Hk. cbv beta. rewrite A5, B5 by lia. reflexivity. }
      wbind. apply R; try lia. wbind. apply R; try lia. wbind. apply R; try lia. wbind. apply R; try lia.
      apply wp_ret. rewrite <- S4. exact HQ.
    Qed.

    Lemma vsum_comm : forall n (f g : Z -> T), vsum K n (fun k => f k *' g k) = vsum K n (fun k => g k *' f k).
    Proof. intros. apply (vsum_ext K). intros; ring. Qed.

    Lemma adot_spec : forall fuel L m blas1min optflags value alpha x y,
      isvec x -> isvec y -> wf x -> wf y -> allocated L x -> allocated L y ->
      vlen x = vlen y -> 0 <= blas1min -> vlen x < Z.of_nat fuel ->
      armas_adot K fuel blas1min optflags value alpha x y L m =
        Some ((0, value +' alpha *' vsum K (vlen x) (fun k => velt m x k *' velt m y k)), m).
    Proof.
      intros fuel L m blas1min optflags value alpha x y Vx Vy Wx Wy Lx Ly Hl Hb Hf.
      pose proof (vlen_nonneg x Wx) as Hx.
      assert (W : wp (armas_adot K fuel blas1min optflags value alpha x y) L m (fun r m' =>
        r = (0, value +' alpha *' vsum K (vlen x) (fun k => velt m x k *' velt m y k)) /\ m' = m)).
      { unfold armas_adot. apply isvector_isvec in Vx as E1. apply isvector_isvec in Vy as E2.
        rewrite E1, E2. cbn [negb]. change (armas_size x) with (vlen x). change (armas_size y) with (vlen y).
        rewrite Hl, Z.eqb_refl. cbn [negb]. wbind. rewrite vsum_comm. apply wp_if; intros E.
        - apply vec_dot_wp; auto; try lia. apply wp_ret. auto.
        - apply vec_dot_rec_wp; auto; try lia. apply wp_ret. auto. }
      destruct W as (r & m' & E & -> & ->). exact E.
    Qed.

    Lemma dot_spec : forall fuel L m blas1min optflags x y,
      isvec x -> isvec y -> wf x -> wf y -> allocated L x -> allocated L y ->
      vlen x = vlen y -> 0 <= blas1min -> vlen x < Z.of_nat fuel ->
      armas_dot K fuel blas1min optflags x y L m =
        Some (vsum K (vlen x) (fun k => velt m x k *' velt m y k), m).
    Proof.
      intros. unfold armas_dot. rewrite run_bind, adot_spec by auto. cbn.
      apply f_equal. f_equal. ring.
    Qed.

    Lemma dot_unsafe_wp : forall fuel blas1min L x y m (Q : T -> (Z -> T) -> Prop),
      isvec x -> isvec y -> wf x -> wf y -> allocated L x -> allocated L y ->
      vlen y <= vlen x -> 0 <= blas1min -> vlen y < Z.of_nat fuel ->
      Q (vsum K (vlen y) (fun k => velt m x k *' velt m y k)) m ->
      wp (armas_dot_unsafe K fuel blas1min x y) L m Q.
    Proof.
      intros fuel blas1min L x y m Q Vx Vy Wx Wy Lx Ly Hl Hb Hf HQ.
      pose proof (vlen_nonneg y Wy) as Hy.
      unfold armas_dot_unsafe, armas_adot_unsafe. change (armas_size y) with (vlen y). wbind.
      assert (E : forall s, zero K +' s *' one K = s) by (intros; ring).
      apply wp_if; intros Eb.
      - apply vec_dot_wp; auto; try lia. apply wp_ret. rewrite E. exact HQ.
      - apply vec_dot_rec_wp; auto; try lia. apply wp_ret. rewrite E, vsum_comm. exact HQ.
    Qed.

    (* ---- asum ---- *)

    Lemma vec_asum_wp : forall L X n m (Q : T -> (Z -> T) -> Prop),
      isvec X -> wf X -> allocated L X -> 0 <= n <= vlen X ->
      Q (vsum K n (fun k => abs K (velt m X k))) m ->
      wp (vec_asum K X n) L m Q.
    Proof.
      intros L X n m Q VX WX LX Hn HQ. unfold vec_asum. wbind.
      set (f := fun k => abs K (velt m X k)) in *.
      apply wp_unroll4_acc with (I := fun i c m' => m' = m /\
        let '(c0, c1, c2, c3) := c in c0 +' c1 +' c2 +' c3 = vsum K i f); auto; try lia.
      - split; auto. rewrite vsum_0 by lia. ring.
      - intros i [[[c0 c1] c2] c3] m' Hi Hi3 (-> & IH). do 4 (vrd X). apply wp_ret.
        split; auto.
        replace (i + 4) with (i + 0 + 1 + 1 + 1 + 1) by lia. rewrite !vsum_S by lia.
        replace (i + 0 + 1 + 1 + 1) with (i + 3) by lia. replace (i + 0 + 1 + 1) with (i + 2) by lia.
        replace (i + 0 + 1) with (i + 1) by lia.
        replace (vsum K (i + 0) f) with (c0 +' c1 +' c2 +' c3) by (rewrite IH; f_equal; lia).
        unfold f. rewrite !velt_vad. ring.
      - intros i [[[c0 c1] c2] c3] m' Hi (-> & IH). vrd X. apply wp_ret.
        destruct (n - i =? 3), (n - i =? 2); (split; [reflexivity|]); rewrite vsum_S, <- IH by lia;
          unfold f; rewrite !velt_vad; ring.
      - intros [[[c0 c1] c2] c3] m' (-> & IH). apply wp_ret. rewrite IH. exact HQ.
    Qed.

    Lemma kahan_exact : forall s ax, kahan1 K s (zero K) ax = (s +' ax, zero K).
    Proof. intros s ax. unfold kahan1. cbv zeta. f_equal; ring. Qed.

    Lemma loop_end_2 : forall n, 0 <= n -> loop_end 0 (n - 1) 2 = n \/ loop_end 0 (n - 1) 2 = n - 1.
    Proof.
      intros n Hn. destruct (Z_le_dec 0 (n - 1)).
      - pose proof (trips_bounds 0 (n - 1) 2 ltac:(lia) ltac:(lia)) as [H _]. lia.
      - rewrite loop_end_0 by lia. lia.
    Qed.

    Lemma vec_asum_kahan_wp : forall L X n m (Q : T -> (Z -> T) -> Prop),
      isvec X -> wf X -> allocated L X -> 0 <= n <= vlen X ->
      Q (vsum K n (fun k => abs K (velt m X k))) m ->
      wp (vec_asum_kahan K X n) L m Q.
    Proof.
      intros L X n m Q VX WX LX Hn HQ. unfold vec_asum_kahan. wbind.
      set (f := fun k => abs K (velt m X k)) in *.
      apply wp_for_acc with (I := fun i c m' => m' = m /\
        let '(s0, c0, s1, c1) := c in c0 = zero K /\ c1 = zero K /\ s0 +' s1 = vsum K i f); try lia.
      - split; auto. split; auto. split; auto. rewrite vsum_0 by lia. ring.
      - intros i [[[s0 c0] s1] c1] m' k Hk Ek Hi (-> & -> & -> & IH). do 2 (vrd X).
        rewrite !kahan_exact. apply wp_ret. split; auto. split; auto. split; auto.
        replace (i + 2) with (i + 0 + 1 + 1) by lia. rewrite !vsum_S by lia.
        replace (i + 0 + 1) with (i + 1) by lia.
        replace (vsum K (i + 0) f) with (s0 +' s1) by (rewrite IH; f_equal; lia).
        unfold f. rewrite !velt_vad. ring.
      - intros [[[s0 c0] s1] c1] m' (-> & -> & -> & IH). cbv zeta.
        destruct (loop_end_2 n ltac:(lia)) as [E|E].
        + rewrite E, Z.eqb_refl. apply wp_ret. rewrite E in IH. rewrite IH. exact HQ.
        + apply wp_if; intros E'; [lia|]. 
          rewrite E in *.
          assert (0 <= n - 1). { pose proof (trips_bounds 0 (n - 1) 2 ltac:(lia)). 
            destruct (Z_le_dec 0 (n - 1)); [auto|]. rewrite loop_end_0 in E by lia. lia. }
          vrd X. rewrite kahan_exact. apply wp_ret.
          replace (s0 +' abs K (m (vad X (n - 1 + 0))) +' s1) with (vsum K n f); auto.
          replace n with (n - 1 + 1) at 1 by lia. rewrite vsum_S, <- IH by lia. unfold f. rewrite velt_vad.
          replace (n - 1 + 0) with (n - 1) by lia. ring.
    Qed.

    Lemma vec_asum_sub : forall L X n len m (Q : T -> (Z -> T) -> Prop),
      isvec X -> wf X -> allocated L X -> 0 <= n -> 0 <= len -> n + len <= vlen X ->
      Q (vsum K len (fun k => abs K (velt m X (n + k)))) m ->
      wp (vec_asum K (armas_subvector_unsafe X n len) len) L m Q.
    Proof.
      intros L X n len m Q VX WX LX Hn Hl HX HQ.
      destruct (subv L X n len) as (A1 & A2 & A3 & A4 & A5); auto.
      apply vec_asum_wp; auto; try lia.
      erewrite vsum_ext; [exact HQ|]. intros k Hk. cbv beta. rewrite A5 by lia. reflexivity.
    Qed.

    Lemma vec_asum_rec_wp : forall fuel L X n minsz m (Q : T -> (Z -> T) -> Prop),
      isvec X -> wf X -> allocated L X ->
      0 <= n <= vlen X -> 1 <= minsz -> n < Z.of_nat fuel ->
      Q (vsum K n (fun k => abs K (velt m X k))) m ->
      wp (vec_asum_recursive K fuel X n minsz) L m Q.
    Proof.
      induction fuel as [|fuel IH]; intros L X n minsz m Q VX WX LX Hn Hm Hf HQ; [lia|].
      cbn [vec_asum_recursive]. cbv zeta.
      destruct (quot_facts n ltac:(lia)) as (-> & -> & F1 & F2 & F3 & F4 & F5).
      assert (S2 : vsum K n (fun k => abs K (velt m X k)) =
         vsum K (n / 2) (fun k => abs K (velt m X (0 + k))) +'
         vsum K (n - n / 2) (fun k => abs K (velt m X (n / 2 + k)))).
      { replace n with (n / 2 + (n - n / 2)) at 1 by lia. rewrite (vsum_split K HR) by lia. reflexivity. }
      assert (S4 : vsum K n (fun k => abs K (velt m X k)) =
         vsum K (n / 4) (fun k => abs K (velt m X (0 + k))) +'
         vsum K (n / 2 - n / 4) (fun k => abs K (velt m X (n / 4 + k))) +'
         vsum K (n / 4) (fun k => abs K (velt m X (n / 2 + k))) +'
         vsum K (n - n / 2 - n / 4) (fun k => abs K (velt m X (n / 2 + n / 4 + k)))).
      { replace n with (n / 4 + ((n / 2 - n / 4) + (n / 4 + (n - n / 2 - n / 4)))) at 1 by lia.
        rewrite !(vsum_split K HR) by lia. cbn -[Z.div Z.add Z.sub].
        replace (n / 4 + (n / 2 - n / 4)) with (n / 2) by lia.
        assert (E : forall a b c d : T, a +' (b +' (c +' d)) = a +' b +' c +' d) by (intros; ring).
        rewrite E. f_equal; [f_equal|].
        - apply (vsum_ext K). intros k Hk. f_equal; f_equal; lia.
        - apply (vsum_ext K). intros k Hk. f_equal; f_equal; lia. }
      apply wp_if; intros E1; [apply vec_asum_wp; auto|].
      apply wp_if; intros E2.
      { wbind. apply vec_asum_sub; auto; try lia. wbind. apply vec_asum_sub; auto; try lia.
        apply wp_ret. rewrite <- S2. exact HQ. }
      apply wp_if; intros E3.
      { wbind. apply vec_asum_sub; auto; try lia. wbind. apply vec_asum_sub; auto; try lia.
        wbind. apply vec_asum_sub; auto; try lia. wbind. apply vec_asum_sub; auto; try lia.
        apply wp_ret. rewrite <- S4. exact HQ. }
      assert (4 <= n). { pose proof (Z.div_mod n 4 ltac:(lia)). pose proof (Z.mod_pos_bound n 4 ltac:(lia)). lia. }
      destruct (F5 ltac:(lia)) as (G1 & G2 & G3).
      assert (R : forall a len (Q' : T -> (Z -> T) -> Prop), 0 <= a -> 0 <= len < n -> a + len <= n ->
         Q' (vsum K len (fun k => abs K (velt m X (a + k)))) m ->
         wp (vec_asum_recursive K fuel (armas_subvector_unsafe X a len) len minsz) L m Q').
      { intros a len Q' Ha Hlen Hal HQ'.
        destruct (subv L X a len) as (A1 & A2 & A3 & A4 & A5); auto; try lia.
        apply IH; auto; try lia.
        erewrite vsum_ext; [exact HQ'|]. intros k Hk. cbv beta. rewrite A5 by lia. reflexivity. }
      wbind. apply R; try lia. wbind. apply R; try lia. wbind. apply R; try lia. wbind. apply R; try lia.
      apply wp_ret. rewrite <- S4. exact HQ.
    Qed.

    Lemma asum_spec : forall fuel L m blas1min optflags x,
      isvec x -> wf x -> allocated L x -> 1 <= blas1min -> vlen x < Z.of_nat fuel ->
      armas_asum K fuel blas1min optflags x L m =
        Some (vsum K (vlen x) (fun k => abs K (velt m x k)), m).
    Proof.
      intros fuel L m blas1min optflags x Vx Wx Lx Hb Hf.
      pose proof (vlen_nonneg x Wx) as Hx.
      assert (W : wp (armas_asum K fuel blas1min optflags x) L m (fun r m' =>
        r = vsum K (vlen x) (fun k => abs K (velt m x k)) /\ m' = m)).
      { unfold armas_asum. apply isvector_isvec in Vx as E1. rewrite E1. cbn [negb]. cbv zeta.
        change (armas_size x) with (vlen x).
        apply wp_if; intros E; [apply vec_asum_kahan_wp; auto; lia|].
        apply wp_if; intros E'; [apply vec_asum_wp; auto; lia|].
        apply vec_asum_rec_wp; auto; lia. }
      destruct W as (r & m' & E & -> & ->). exact E.
    Qed.
  End Ring.

  (* ---- iamax, iamin ---- *)
  Section Order.
    Hypothesis HO : ltb_ok K.

    (* a <= b *)
    Lemma nlt_trans : forall a b c, ltb K b a = false -> ltb K c b = false -> ltb K c a = false.
    Proof.
      destruct HO as (H1 & H2 & H3). intros a b c Hab Hbc.
      destruct (ltb K c a) eqn:E; auto.
      destruct (H3 a b) as [H|[->|H]]; try congruence.
      rewrite (H2 c a b) in Hbc; congruence.
    Qed.
    Lemma lt_nlt : forall a b, ltb K a b = true -> ltb K b a = false.
    Proof.
      destruct HO as (H1 & H2 & H3). intros a b H. destruct (ltb K b a) eqn:E; auto.
      rewrite <- (H1 a). symmetry. apply (H2 a b a); auto.
    Qed.
    Lemma lt_nlt_lt : forall a b c, ltb K a b = true -> ltb K c b = false -> ltb K a c = true.
    Proof.
      destruct HO as (H1 & H2 & H3). intros a b c H Hn.
      destruct (H3 b c) as [E|[->|E]]; auto; [|congruence]. eapply H2; eauto.
    Qed.

    Lemma iamax_wp : forall L x m (Q : Z -> (Z -> T) -> Prop),
      (forall t, ltb K (abs K t) (zero K) = false) ->
      isvec x -> wf x -> allocated L x -> 0 < vlen x ->
      (forall ix, 0 <= ix < vlen x ->
         (forall k, 0 <= k < vlen x -> ltb K (abs K (velt m x ix)) (abs K (velt m x k)) = false) ->
         (forall k, 0 <= k < ix -> ltb K (abs K (velt m x k)) (abs K (velt m x ix)) = true) ->
         Q ix m) ->
      wp (armas_iamax K x) L m Q.
    Proof.
      intros L x m Q Habs Vx Wx Lx Hn HQ. unfold armas_iamax.
      apply isvector_isvec in Vx as E1. rewrite E1. cbn [negb]. change (armas_size x) with (vlen x).
      replace (vlen x =? 0) with false by lia. unfold vec_iamax2.
      destruct HO as (O1 & O2 & O3).
      apply wp_if; intros E.
      - apply wp_ret. apply HQ; try lia. intros k Hk. assert (k = 0) as -> by lia. apply O1.
      - wbind.
        apply wp_for1_acc with (I := fun i r m' => m' = m /\ 0 <= fst r < vlen x /\
           (forall k, 0 <= k < i -> ltb K (snd r) (abs K (velt m x k)) = false) /\
           ((fst r < i /\ snd r = abs K (velt m x (fst r)) /\
             (forall k, 0 <= k < fst r -> ltb K (abs K (velt m x k)) (snd r) = true)) \/
            (fst r = 0 /\ snd r = zero K /\ (forall k, 0 <= k < i -> ltb K (abs K (velt m x k)) (zero K) = false /\
                ltb K (zero K) (abs K (velt m x k)) = false)))).
        + cbn. split; auto. split; [lia|]. split; [intros; lia|]. right. split; auto. split; auto. intros; lia.
        + intros i [ix mx] m' Hi (-> & H1 & H2 & H3). cbn [fst snd] in *. vrd x.
          rewrite <- velt_vad. apply wp_ret.
          destruct (ltb K mx (abs K (velt m x i))) eqn:El; cbn [fst snd].
          * split; auto. split; [lia|]. split.
            -- intros k Hk. assert (k < i \/ k = i) as [Hk'| ->] by lia; [|apply O1].
               eapply nlt_trans; [apply H2; lia|]. apply lt_nlt; auto.
            -- left. split; [lia|]. split; auto. intros k Hk.
               assert (Hkm : ltb K mx (abs K (velt m x k)) = false) by (apply H2; lia).
               destruct (O3 (abs K (velt m x k)) mx) as [H|[H|H]]; [eauto|rewrite H; auto|congruence].
          * split; auto. split; [lia|]. split.
            -- intros k Hk. assert (k < i \/ k = i) as [Hk'| ->] by lia; auto. apply H2; lia.
            -- destruct H3 as [(A & B & C)|(A & B & C)]; [left|right].
               ++ split; [lia|]. auto.
               ++ split; auto. split; auto. intros k Hk. assert (k < i \/ k = i) as [Hk'| ->] by lia; [apply C; lia|].
                  subst. split; auto.
        + intros [ix mx] m' (-> & H1 & H2 & H3). cbn [fst snd] in *. apply wp_ret.
          rewrite Z.max_r in * by lia. destruct H3 as [(A & B & C)|(A & B & C)].
          * apply HQ; auto; rewrite <- B; auto.
          * subst. apply HQ; [lia| |intros; lia].
            intros k Hk. destruct (C 0 ltac:(lia)) as (C1 & C2). destruct (C k ltac:(lia)) as (C3 & C4).
            eapply nlt_trans; eauto.
    Qed.

    Lemma iamax_spec : forall L m x, (forall t, ltb K (abs K t) (zero K) = false) ->
      isvec x -> wf x -> allocated L x -> 0 < vlen x ->
      exists ix, armas_iamax K x L m = Some (ix, m) /\ 0 <= ix < vlen x /\
        (forall k, 0 <= k < vlen x -> ltb K (abs K (velt m x ix)) (abs K (velt m x k)) = false) /\
        (forall k, 0 <= k < ix -> ltb K (abs K (velt m x k)) (abs K (velt m x ix)) = true).
    Proof.
      intros L m x Habs Vx Wx Lx Hn.
      assert (W : wp (armas_iamax K x) L m (fun ix m' => m' = m /\ 0 <= ix < vlen x /\
        (forall k, 0 <= k < vlen x -> ltb K (abs K (velt m x ix)) (abs K (velt m x k)) = false) /\
        (forall k, 0 <= k < ix -> ltb K (abs K (velt m x k)) (abs K (velt m x ix)) = true))).
      { apply iamax_wp; auto. }
      destruct W as (ix & m' & E & -> & H). eauto.
    Qed.

    Lemma amax_spec : forall L m x, (forall t, ltb K (abs K t) (zero K) = false) ->
      isvec x -> wf x -> allocated L x -> 0 < vlen x ->
      exists ix, 0 <= ix < vlen x /\
        armas_amax K x L m = Some (abs K (velt m x ix), m) /\
        (forall k, 0 <= k < vlen x -> ltb K (abs K (velt m x ix)) (abs K (velt m x k)) = false).
    Proof.
      intros L m x Habs Vx Wx Lx Hn. destruct (iamax_spec L m x) as (ix & E & H1 & H2 & H3); auto.
      exists ix. split; auto. split; auto. unfold armas_amax. rewrite run_bind, E.
      replace (0 <=? ix) with true by lia. rewrite !run_bind. rewrite get_at_unsafe_run by auto. reflexivity.
    Qed.

    (* contiguous vectors: column vectors, rows with leading dimension 1 *)
    Lemma iamin_spec : forall L m x,
      isvec x -> wf x -> allocated L x -> 0 < vlen x -> vinc x = 1 \/ vlen x = 1 ->
      exists ix, armas_iamin K x L m = Some (ix, m) /\ 0 <= ix < vlen x /\
        (forall k, 0 <= k < vlen x -> ltb K (abs K (velt m x k)) (abs K (velt m x ix)) = false) /\
        (forall k, 0 <= k < ix -> ltb K (abs K (velt m x ix)) (abs K (velt m x k)) = true).
    Proof.
      intros L m x Vx Wx Lx Hn Hinc. destruct HO as (O1 & O2 & O3).
      assert (W : wp (armas_iamin K x) L m (fun ix m' => m' = m /\ 0 <= ix < vlen x /\
        (forall k, 0 <= k < vlen x -> ltb K (abs K (velt m x k)) (abs K (velt m x ix)) = false) /\
        (forall k, 0 <= k < ix -> ltb K (abs K (velt m x ix)) (abs K (velt m x k)) = true))).
      { unfold armas_iamin. apply isvector_isvec in Vx as E1. rewrite E1. cbn [negb].
        change (armas_size x) with (vlen x). replace (vlen x =? 0) with false by lia. unfold vec_iamin2.
        apply wp_if; intros E.
        - apply wp_ret. split; [auto|]. split; [lia|]. split; [|intros; lia].
          intros k Hk. assert (k = 0) as -> by lia. apply O1.
        - destruct Hinc as [Hinc|]; [|lia].
          wbind. eapply wp_rd_v with (x := x) (k := 0); auto; [vdm|rewrite <- vad_eq; lia|].
          wbind. rewrite <- velt_vad.
          apply wp_for1_acc with (I := fun i r m' => m' = m /\ 0 <= fst (fst r) < i /\
             snd (fst r) = abs K (velt m x (fst (fst r))) /\ snd r = elems x + i /\
             (forall k, 0 <= k < i -> ltb K (abs K (velt m x k)) (snd (fst r)) = false) /\
             (forall k, 0 <= k < fst (fst r) -> ltb K (snd (fst r)) (abs K (velt m x k)) = true)).
          + cbn [fst snd]. split; [auto|]. split; [lia|]. split; [auto|]. split; [auto|]. split; [|intros; lia].
            intros k Hk. assert (k = 0) as -> by lia. apply O1.
          + intros i [[ix mn] ep] m' Hi (-> & H1 & H2 & H3 & H4 & H5). cbn [fst snd] in *.
            wbind. eapply wp_rd_v with (x := x) (k := i); auto; [vdm|rewrite <- vad_eq, Hinc; lia|].
            rewrite <- velt_vad. apply wp_ret. cbv zeta.
            destruct (ltb K (abs K (velt m x i)) mn) eqn:El; cbn [fst snd].
            * split; [auto|]. split; [lia|]. split; [auto|]. split; [lia|]. split.
              -- intros k Hk. assert (k < i \/ k = i) as [Hk'| ->] by lia; [|apply O1].
                 eapply nlt_trans; [|apply H4; lia]. apply lt_nlt; auto.
              -- intros k Hk. eapply lt_nlt_lt; [exact El|apply H4; lia].
            * split; [auto|]. split; [lia|]. split; [auto|]. split; [lia|]. split; [|auto].
              intros k Hk. assert (k < i \/ k = i) as [Hk'| ->] by lia; auto. apply H4; lia.
          + intros [[ix mn] ep] m' (-> & H1 & H2 & H3 & H4 & H5). cbn [fst snd] in *. apply wp_ret.
            rewrite Z.max_r in * by lia. split; auto. split; [lia|]. rewrite <- H2. auto. }
      destruct W as (ix & m' & E & -> & H). eauto.
    Qed.
  End Order.
End P.
