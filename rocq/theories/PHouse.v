(* PHouse.v: the reflectors that house.c computes. *)
From Coq Require Import ZArith Lia Bool ZifyBool Ring Field.
From Verif Require Import Mem MView SpecView PView PSub Hoare MFlags MBase MCopy PUpd PCopy
  MNum SpecNum MBlas1 PSum PBlas1 PNorm MElem PElem MBlas2 PMvec PBlas2
  PFrame SpecTrm MTrm PTrm MGemm PGemm PMatcpy PMult MTrsm PTrsm MLap PLap MHouse SpecHouse
  Properties_Blas1 Properties_Blas2.
Local Open Scope Z_scope.
Local Open Scope prog_scope.

Ltac lia := nobool; zlia.

Section A.
  Context {T : Type} (K : num T).
  Hypotheses (HF : is_field K) (HO : is_ordered K) (HE : eqb_ok K).
  Let HF' : field_theory (zero K) (one K) (add K) (mul K) (sub K) (opp K) (div K)
    (fun x => div K (one K) x) eq := HF.
  Add Field KfieldH : HF'.
  Let HR : is_ring K := Field_theory.F_R HF.
  Local Notation "a +' b" := (add K a b) (at level 50, left associativity).
  Local Notation "a -' b" := (sub K a b) (at level 50, left associativity).
  Local Notation "a *' b" := (mul K a b) (at level 40, left associativity).
  Local Notation "a /' b" := (div K a b) (at level 40, left associativity).
  Local Notation "0'" := (zero K).
  Local Notation "1'" := (one K).

  Lemma inner_ext : forall n y y' z z', (forall k, 0 <= k < n -> y k = y' k) -> (forall k, 0 <= k < n -> z k = z' k) ->
    inner K n y z = inner K n y' z'.
  Proof. intros n y y' z z' Hy Hz. apply vsum_ext. intros k Hk. rewrite Hy, Hz by auto. reflexivity. Qed.

  Lemma inner_sym : forall n y z, inner K n y z = inner K n z y.
  Proof. intros n y z. apply vsum_ext. intros k Hk. ring. Qed.

  Lemma inner_add : forall n y y' z, inner K n (fun i => y i +' y' i) z = inner K n y z +' inner K n y' z.
  Proof. intros. unfold inner. rewrite <- (vsum_add K HR). apply vsum_ext. intros k Hk. ring. Qed.

  Lemma inner_mul : forall n c y z, inner K n (fun i => c *' y i) z = c *' inner K n y z.
  Proof. intros. unfold inner. rewrite <- (vsum_mul_l K HR). apply vsum_ext. intros k Hk. ring. Qed.

  Lemma inner_sub : forall n y c y' z, inner K n (fun i => y i -' c *' y' i) z = inner K n y z -' c *' inner K n y' z.
  Proof.
    intros. transitivity (inner K n (fun i => y i +' (opp K c) *' y' i) z).
    - apply vsum_ext. intros k Hk. ring.
    - rewrite inner_add, inner_mul. ring.
  Qed.

  Lemma vsum_S0 : forall n f, 0 <= n -> vsum K (n + 1) f = f 0 +' vsum K n (fun k => f (k + 1)).
  Proof.
    intros n f Hn. replace (n + 1) with (1 + n) by lia. rewrite (vsum_split K HR) by lia. rewrite (vsum_1 K HR).
    f_equal. apply vsum_ext. intros k Hk. f_equal. lia.
  Qed.

  Lemma vcons_0 : forall (a : T) x, vcons a x 0 = a. Proof. reflexivity. Qed.
  Lemma vcons_S : forall (a : T) x k, 0 <= k -> vcons a x (k + 1) = x k.
  Proof. intros. unfold vcons. replace (k + 1 =? 0) with false by lia. f_equal. lia. Qed.

  Lemma inner_vcons : forall n a b x y, 0 <= n -> inner K (n + 1) (vcons a x) (vcons b y) = a *' b +' inner K n x y.
  Proof.
    intros n a b x y Hn. unfold inner. rewrite vsum_S0 by auto. rewrite !vcons_0. f_equal.
    apply vsum_ext. intros k Hk. rewrite !vcons_S by lia. reflexivity.
  Qed.

  (* the map is an isometry if t = 0 or t*(v.v) = 2 *)
  Lemma reflect_iso : forall n t v, t *' (t *' inner K n v v -' (1' +' 1')) = 0' -> isometry K n (reflect K n t v).
  Proof.
    intros n t v H y z. set (a := inner K n v y). set (b := inner K n v z).
    transitivity (inner K n (fun i => y i -' (t *' a) *' v i) (fun i => z i -' (t *' b) *' v i)).
    { apply inner_ext; intros k Hk; unfold reflect; fold a b; ring. }
    rewrite inner_sub, (inner_sym n y), (inner_sym n v (fun i => z i -' _)), !inner_sub.
    rewrite (inner_sym n z y), (inner_sym n z v). fold a b.
    transitivity (inner K n y z +' (t *' (t *' inner K n v v -' (1' +' 1'))) *' (a *' b)); [ring|].
    rewrite H. ring.
  Qed.

  Lemma reflect_scale : forall n t v c z i, reflect K n t v (fun k => c *' z k) i = c *' reflect K n t v z i.
  Proof.
    intros. unfold reflect. rewrite (inner_sym n v (fun k => c *' z k)), inner_mul, (inner_sym n z v). ring.
  Qed.

  Lemma reflect_ext : forall n t v v' z z' i, (forall k, 0 <= k < n -> v k = v' k) -> (forall k, 0 <= k < n -> z k = z' k) ->
    0 <= i < n -> reflect K n t v z i = reflect K n t v' z' i.
  Proof. intros. unfold reflect. rewrite (inner_ext n v v' z z') by auto. rewrite H, H0 by auto. reflexivity. Qed.

  (* the heart of the matter: with v = (1, x/d), d = a - b, t = -d/b and b^2 = a^2 + x.x *)
  Lemma hh_core : forall n x a b d t, 0 <= n -> b <> 0' -> d <> 0' -> d = a -' b -> b *' b = a *' a +' inner K n x x ->
    t = opp K d /' b ->
    let v := vcons 1' (fun k => x k *' (1' /' d)) in
    (forall i, 0 <= i < n + 1 -> reflect K (n + 1) t v (vcons a x) i = vcons b (fun _ => 0') i) /\
    t *' inner K (n + 1) v v = 1' +' 1'.
  Proof.
    intros n x a b d t Hn Hb Hd Ed Eb Et v.
    assert (EN : inner K n x x = b *' b -' a *' a) by (rewrite Eb; ring).
    assert (Ev : forall y, inner K n (fun k => x k *' (1' /' d)) y = (1' /' d) *' inner K n x y).
    { intros y. rewrite <- inner_mul. apply vsum_ext. intros k Hk. ring. }
    assert (Evz : inner K (n + 1) v (vcons a x) = opp K b).
    { unfold v. rewrite inner_vcons, Ev, EN by auto. replace (b *' b -' a *' a) with (opp K d *' (a +' b)) by (rewrite Ed; ring).
      transitivity (a -' (a +' b)); [field; auto|ring]. }
    split.
    - intros i Hi. unfold reflect. rewrite Evz. rewrite Et. destruct (Z.eq_dec i 0) as [->|Hi0].
      + unfold v. rewrite !vcons_0. transitivity (a -' d); [field; auto|rewrite Ed; ring].
      + unfold v, vcons. replace (i =? 0) with false by lia. field. auto.
    - unfold v. rewrite inner_vcons, Ev, (inner_sym n x), Ev, EN by auto.
      replace (b *' b -' a *' a) with (opp K d *' (d +' (b +' b))) by (rewrite Ed; ring).
      rewrite Et. field. auto.
  Qed.

  (* ---- order ---- *)
  Lemma sq_ne : forall a, a <> 0' -> a *' a <> 0'.
  Proof. intros a Ha H. apply (o_sq K HF HO) in Ha. rewrite H in Ha. rewrite (o_irr K HO) in Ha. discriminate. Qed.

  Lemma nn_pos : forall a, ltb K a 0' = false -> a <> 0' -> ltb K 0' a = true.
  Proof. intros a H Hn. destruct (o_tot K HO a 0') as [H'|[H'|H']]; auto; congruence. Qed.

  Lemma sum_sq_nn : forall a b, ltb K (a *' a +' b *' b) 0' = false.
  Proof. intros. apply (o_add_nn K HF HO); apply (o_sq_nn K HF HO). Qed.

  Lemma sum_sq_ne : forall a b, b <> 0' -> a *' a +' b *' b <> 0'.
  Proof.
    intros a b Hb H. apply (o_sq K HF HO) in Hb.
    pose proof (o_add_pos K HF HO _ _ Hb (o_sq_nn K HF HO a)) as Hp.
    replace (b *' b +' a *' a) with 0' in Hp by (rewrite <- H; ring). rewrite (o_irr K HO) in Hp. discriminate.
  Qed.

  Hypothesis HS : sqrt_ok K.

  Lemma hypot_ok : forall a b, ltb K (hypot K a b) 0' = false /\ hypot K a b *' hypot K a b = a *' a +' b *' b.
  Proof. intros a b. unfold hypot. apply HS. apply sum_sq_nn. Qed.

  Lemma hypot_ne : forall a b, b <> 0' -> hypot K a b <> 0'.
  Proof. intros a b Hb H. pose proof (proj2 (hypot_ok a b)) as E. rewrite H in E. apply (sum_sq_ne a b Hb). rewrite <- E. ring. Qed.

  Lemma sign_sq : forall a, sign_of K a *' sign_of K a = 1'.
  Proof. intros a. unfold sign_of. destruct (ltb K a 0'); ring. Qed.

  Lemma one_ne : 1' <> 0'. Proof. exact (F_1_neq_0 HF). Qed.

  Lemma sign_ne : forall a, sign_of K a <> 0'.
  Proof. intros a H. apply one_ne. rewrite <- (sign_sq a), H. ring. Qed.

  Lemma mul_ne : forall a b, a <> 0' -> b <> 0' -> a *' b <> 0'.
  Proof. intros a b Ha Hb H. apply Hb. transitivity (1' /' a *' (a *' b)); [field; auto|rewrite H; ring]. Qed.

  Lemma opp_ne : forall a, a <> 0' -> opp K a <> 0'.
  Proof. intros a Ha H. apply Ha. transitivity (opp K (opp K a)); [ring|rewrite H; ring]. Qed.

  Lemma div_opp : forall d b, b <> 0' -> d /' b = opp K d /' opp K b.
  Proof. intros d b Hb. field. split; auto. apply opp_ne. auto. Qed.

  Definition neg_of (flags : Z) (b : T) : T := if has flags ARMAS_HHNEGATIVE then opp K b else b.

  Lemma select_ok : forall flags a normx sa b d t, normx <> 0' ->
    hh_select K flags a (hypot K a normx) normx (sign_of K sa) = (b, d, t) ->
    neg_of flags b <> 0' /\ d <> 0' /\ d = a -' neg_of flags b /\ b *' b = a *' a +' normx *' normx /\
    t = opp K d /' neg_of flags b /\ (has flags ARMAS_NONNEG = true -> ltb K b 0' = false).
  Proof.
    intros flags a normx sa b d t Hn H. destruct (hypot_ok a normx) as (B1 & B2). pose proof (hypot_ne a normx Hn) as B3.
    pose proof (nn_pos _ B1 B3) as B4. set (beta := hypot K a normx) in *. clearbody beta.
    pose proof (sign_ne sa) as S1. pose proof (sign_sq sa) as S2. set (sg := sign_of K sa) in *. clearbody sg.
    assert (D : forall c, c *' c = a *' a +' normx *' normx -> a -' c <> 0').
    { intros c Ec Hz. apply (sq_ne normx Hn). assert (Ec' : a = c) by (transitivity (a -' c +' c); [ring|rewrite Hz; ring]).
      subst c. transitivity ((a *' a +' normx *' normx) -' a *' a); [ring|rewrite <- Ec; ring]. }
    assert (N2 : normx *' normx = beta *' beta -' a *' a) by (rewrite B2; ring).
    unfold hh_select, neg_of in *. destruct (has flags ARMAS_HHNEGATIVE), (has flags ARMAS_NONNEG).
    - assert (Ed : d = a -' opp K beta /\ b = beta /\ t = d /' beta).
      { destruct (ltb K a 0') eqn:Ea; cbn [negb] in H; injection H as <- <- <-; (split; [|split; reflexivity]).
        - assert (Hab : a -' beta <> 0') by (apply D; exact B2).
          transitivity (opp K (normx *' normx) /' (a -' beta)); [field; auto|rewrite N2; field; auto].
        - ring. }
      destruct Ed as (Ed & -> & ->). assert (Hd : d <> 0') by (rewrite Ed; apply D; rewrite <- B2; ring).
      split; [apply opp_ne; auto|]. split; [auto|]. split; [auto|]. split; [auto|]. split; [apply div_opp; auto|auto].
    - injection H as <- <- <-. assert (Hb : sg *' beta <> 0') by (apply mul_ne; auto).
      assert (Q2 : sg *' beta *' (sg *' beta) = a *' a +' normx *' normx).
      { rewrite <- B2. transitivity (sg *' sg *' (beta *' beta)); [ring|rewrite S2; ring]. }
      assert (Hd : a +' sg *' beta <> 0').
      { replace (a +' sg *' beta) with (a -' opp K (sg *' beta)) by ring. apply D. rewrite <- Q2. ring. }
      split; [apply opp_ne; auto|]. split; [auto|]. split; [ring|]. split; [auto|]. split; [apply div_opp; auto|discriminate].
    - assert (Ed : d = a -' beta /\ b = beta /\ t = opp K d /' beta).
      { destruct (ltb K 0' a) eqn:Ea; cbn [negb] in H; injection H as <- <- <-; (split; [|split; reflexivity]).
        - assert (Hab : a +' beta <> 0').
          { replace (a +' beta) with (a -' opp K beta) by ring. apply D. rewrite <- B2. ring. }
          transitivity (opp K (normx *' normx) /' (a +' beta)); [field; auto|rewrite N2; field; auto].
        - ring. }
      destruct Ed as (Ed & -> & ->). assert (Hd : d <> 0') by (rewrite Ed; apply D; auto).
      split; [auto|]. split; [auto|]. split; [auto|]. split; [auto|]. split; [reflexivity|auto].
    - injection H as <- <- <-. assert (Hb : opp K sg *' beta <> 0') by (apply mul_ne; auto; apply opp_ne; auto).
      assert (Q2 : opp K sg *' beta *' (opp K sg *' beta) = a *' a +' normx *' normx).
      { rewrite <- B2. transitivity (sg *' sg *' (beta *' beta)); [ring|rewrite S2; ring]. }
      assert (Hd : a -' opp K sg *' beta <> 0') by (apply D; auto).
      split; [auto|]. split; [auto|]. split; [ring|]. split; [auto|]. split; [reflexivity|discriminate].
  Qed.

  (* ---- scaling ---- *)
  Fixpoint kpow (a : T) (n : nat) : T := match n with O => 1' | S n => kpow a n *' a end.

  Lemma unscale_pow : forall s n b, hh_unscale K s n b = b *' kpow s n.
  Proof. intros s n. induction n as [|n IH]; intros b; cbn [hh_unscale kpow]; [ring|rewrite IH; ring]. Qed.

  Lemma pow_inv : forall s n, s <> 0' -> kpow (1' /' s) n *' kpow s n = 1'.
  Proof.
    intros s n Hs. induction n as [|n IH]; cbn [kpow]; [ring|].
    transitivity (kpow (1' /' s) n *' kpow s n *' (1' /' s *' s)); [ring|rewrite IH; field; auto].
  Qed.

  (* the loop bound of the model suffices *)
  Definition steps_ok (safmin : T) (steps : T -> nat) : Prop :=
    forall b, ltb K 0' b = true -> ltb K b safmin = true ->
      exists n, (0 < n <= steps b)%nat /\ ltb K (b *' kpow (1' /' safmin) n) safmin = false.

  Lemma scale_wp : forall L x a m (Q : Z -> (Z -> T) -> Prop), vok L x ->
    (forall m', (forall k, 0 <= k < vlen x -> velt m' x k = velt m x k *' a) -> only_changes x m m' -> Q 0 m') ->
    wp (armas_scale K x a) L m Q.
  Proof.
    intros L x a m Q (V & W & AL) HQ. destruct (C10_scale T K L m x a W AL V) as (m' & R1 & R2 & R3).
    apply (wp_run _ _ _ _ _ _ _ _ R1). auto.
  Qed.

  Lemma nrm2_wp : forall L x m (Q : T -> (Z -> T) -> Prop), vok L x ->
    (forall r, ltb K r 0' = false -> r *' r = inner K (vlen x) (velt m x) (velt m x) -> Q r m) ->
    wp (armas_nrm2 K x) L m Q.
  Proof.
    intros L x m Q (V & W & AL) HQ. destruct (C18_nrm2 T K HF HO HE L m x HS V W AL) as (r & R1 & R2 & R3).
    apply (wp_run _ _ _ _ _ _ _ _ R1). auto.
  Qed.

  Lemma hh_scale_wp : forall L x safmin m0 fuel n b al m (Q : nat * T * T -> (Z -> T) -> Prop) c, vok L x ->
    (exists k, (0 < k <= fuel)%nat /\ ltb K (b *' kpow (1' /' safmin) k) safmin = false) ->
    (forall k, 0 <= k < vlen x -> velt m x k = velt m0 x k *' c) -> only_changes x m0 m ->
    (forall j b' m', (forall k, 0 <= k < vlen x -> velt m' x k = velt m0 x k *' (c *' kpow (1' /' safmin) (S j))) ->
       only_changes x m0 m' -> Q ((n + S j)%nat, b', al *' kpow (1' /' safmin) (S j)) m') ->
    wp (hh_scale K safmin fuel x (1' /' safmin) (n, b, al)) L m Q.
  Proof.
    intros L x safmin m0 fuel. induction fuel as [|fuel IH]; intros n b al m Q c V (k & Hk & Hk2) Hx Ho HQ; [exfalso; Lia.lia|].
    cbn [hh_scale]. set (r := 1' /' safmin) in *. wbind. apply scale_wp; auto. intros m1 R1 R2.
    assert (Hx1 : forall q, 0 <= q < vlen x -> velt m1 x q = velt m0 x q *' (c *' r)).
    { intros q Hq. rewrite R1, Hx by auto. ring. }
    assert (Ho1 : only_changes x m0 m1) by (intros a Ha; rewrite R2, Ho by auto; reflexivity).
    destruct (ltb K (b *' r) safmin) eqn:Eb.
    - destruct k as [|k]; [Lia.lia|]. destruct k as [|k].
      + exfalso. cbn [kpow] in Hk2. replace (b *' (1' *' r)) with (b *' r) in Hk2 by ring. congruence.
      + eapply (IH (S n) (b *' r) (al *' r) m1 Q (c *' r)); auto.
        * exists (S k). split; [Lia.lia|]. rewrite <- Hk2. f_equal. cbn [kpow]. ring.
        * intros j b' m' Hj Hoj. replace (S n + S j)%nat with (n + S (S j))%nat by Lia.lia.
          replace (al *' r *' kpow r (S j)) with (al *' kpow r (S (S j))) by (cbn [kpow]; ring).
          apply HQ; auto. intros q Hq. rewrite Hj by auto. cbn [kpow]. ring.
    - apply wp_ret. replace (S n) with (n + 1)%nat by Lia.lia.
      replace (al *' r) with (al *' kpow r 1) by (cbn [kpow]; ring).
      apply (HQ O (b *' r) m1); auto. intros q Hq. rewrite Hx1 by auto. cbn [kpow]. ring.
  Qed.

  (* what the routine leaves: the reflector (t, (1, v)) and beta *)
  Definition house_res (flags n : Z) (a : T) (x : Z -> T) (b t : T) (v : Z -> T) : Prop :=
    if eqb K (inner K n x x) 0' then t = 0' /\ b = a /\ (forall k, 0 <= k < n -> v k = x k)
    else
      (forall i, 0 <= i < n + 1 -> reflect K (n + 1) t (vcons 1' v) (vcons a x) i = vcons (neg_of flags b) (fun _ => 0') i) /\
      t *' inner K (n + 1) (vcons 1' v) (vcons 1' v) = 1' +' 1' /\
      (has flags ARMAS_NONNEG = true -> ltb K b 0' = false).

  Lemma eqb_iff : forall a b, eqb K a b = false <-> a <> b.
  Proof. intros a b. pose proof (HE a b). destruct (eqb K a b); split; intros; try discriminate; intuition. Qed.

  Lemma sq0 : forall r, r *' r = 0' -> r = 0'.
  Proof. intros r H. destruct (eqb K r 0') eqn:E; [apply HE; auto|]. apply eqb_iff in E. apply sq_ne in E. contradiction. Qed.

  Lemma pow_pos : forall s n, ltb K 0' s = true -> ltb K 0' (kpow s n) = true.
  Proof. intros s n H. induction n as [|n IH]; cbn [kpow]; [apply (o_one K HF HO)|apply (o_mul K HO); auto]. Qed.

  Lemma mul_nn : forall a b, ltb K a 0' = false -> ltb K b 0' = false -> ltb K (a *' b) 0' = false.
  Proof. intros. apply (o_mul_nn K HF HO); auto. Qed.

  Lemma pos_ne : forall a, ltb K 0' a = true -> a <> 0'.
  Proof. intros a H Ha. subst a. rewrite (o_irr K HO) in H. discriminate. Qed.

  (* the result for the scaled vector is one for the vector itself *)
  Lemma unscaled_res : forall flags n a x a' x' b t v c s, 0 <= n -> s *' c = 1' -> ltb K s 0' = false ->
    a' = a *' c -> (forall k, 0 <= k < n -> x' k = x k *' c) -> inner K n x x <> 0' -> inner K n x' x' <> 0' ->
    house_res flags n a' x' b t v -> house_res flags n a x (b *' s) t v.
  Proof.
    intros flags n a x a' x' b t v c s Hn Hsc Hs Ea Ex Hx Hx' H. unfold house_res in *.
    apply eqb_iff in Hx. apply eqb_iff in Hx'. rewrite Hx, Hx' in *. destruct H as (H1 & H2 & H3). split; [|split].
    - intros i Hi. transitivity (reflect K (n + 1) t (vcons 1' v) (fun k => s *' vcons a' x' k) i).
      + apply reflect_ext; auto. intros k Hk. unfold vcons. destruct (k =? 0) eqn:E.
        * rewrite Ea. transitivity (a *' (s *' c)); [rewrite Hsc; ring|ring].
        * rewrite Ex by lia. transitivity (x (k - 1) *' (s *' c)); [rewrite Hsc; ring|ring].
      + rewrite reflect_scale, H1 by auto. unfold vcons, neg_of. destruct (i =? 0), (has flags ARMAS_HHNEGATIVE); ring.
    - exact H2.
    - intros Hf. apply mul_nn; auto.
  Qed.

  Definition put (m : Z -> T) (p : Z) (v : T) : Z -> T := fun a => if a =? p then v else m a.
  Lemma put_same : forall m p v, put m p v p = v. Proof. intros. unfold put. rewrite Z.eqb_refl. reflexivity. Qed.
  Lemma put_other : forall m p v a, a <> p -> put m p v a = m a.
  Proof. intros. unfold put. replace (a =? p) with false by lia. reflexivity. Qed.
  Lemma put_velt : forall m p v x k, vok (fun _ => true) x \/ wf x /\ isvec x -> ~ cell x p -> 0 <= k < vlen x -> velt (put m p v) x k = velt m x k.
  Proof.
    intros m p v x k H Hp Hk. rewrite !velt_vad. apply put_other. intros E. apply Hp. rewrite <- E.
    apply vad_cell; auto; destruct H as [(? & ? & _)|(? & ?)]; auto.
  Qed.
  Lemma wp_put : forall p v L m (Q : unit -> (Z -> T) -> Prop), L p = true -> Q tt (put m p v) -> wp (wr p v) L m Q.
  Proof. intros. apply wp_wr; auto. Qed.
  Lemma addr0 : forall e s : Z, e + (0 * s + 0) = e.
  Proof. intros. rewrite Z.mul_0_l, !Z.add_0_r. reflexivity. Qed.

  Lemma internal_householder_wp : forall L safmin steps a11 x tau flags m (Q : Z -> (Z -> T) -> Prop),
    ltb K 0' safmin = true -> steps_ok safmin steps -> vok L x ->
    L (elems a11) = true -> L (elems tau) = true -> 0 < rows tau * cols tau ->
    ~ cell x (elems a11) -> ~ cell x (elems tau) -> elems a11 <> elems tau ->
    (forall m', house_res flags (vlen x) (m (elems a11)) (velt m x) (m' (elems a11)) (m' (elems tau)) (velt m' x) ->
       (forall a, ~ cell x a -> a <> elems a11 -> a <> elems tau -> m' a = m a) -> Q 0 m') ->
    wp (internal_householder K safmin steps a11 x tau flags) L m Q.
  Proof.
    intros L safmin steps a11 x tau flags m Q Hsp Hst V La Lt Ht Na Nt Nat HQ.
    pose proof addr0 as Z0.
    assert (Hlen : 0 <= vlen x) by (apply vlen_nonneg; apply V).
    assert (V' : wf x /\ isvec x) by (split; apply V).
    unfold internal_householder. wbind. apply nrm2_wp; auto. intros normx N1 N2.
    destruct (eqb K normx 0') eqn:En.
    - apply HE in En. unfold armas_set, armas_size. replace (rows tau * cols tau =? 0) with false by lia. cbn [Z.ltb Z.compare].
      rewrite Z0. wbind. apply wp_put; auto. apply wp_ret. apply HQ.
      + unfold house_res. replace (eqb K (inner K (vlen x) (velt m x) (velt m x)) 0') with true.
        * rewrite put_same, put_other by auto. split; [auto|]. split; [auto|]. intros k Hk. apply put_velt; auto.
        * symmetry. apply HE. rewrite <- N2, En. ring.
      + intros a _ _ Ha. apply put_other; auto.
    - apply eqb_iff in En. unfold armas_get_unsafe, armas_set_unsafe. rewrite !Z0. wbind. apply wp_rd; auto.
      set (al := m (elems a11)). cbv zeta. wbind.
      apply wp_conseq with (P := fun r m1 => exists c s, s *' c = 1' /\ ltb K s 0' = false /\ c <> 0' /\
        let '(ns, al1, nx1, b1) := r in (forall b, hh_unscale K safmin ns b = b *' s) /\ al1 = al *' c /\
        (forall k, 0 <= k < vlen x -> velt m1 x k = velt m x k *' c) /\ only_changes x m m1 /\
        nx1 *' nx1 = inner K (vlen x) (velt m1 x) (velt m1 x) /\ nx1 <> 0' /\ b1 = hypot K al1 nx1).
      + destruct (ltb K (hypot K al normx) safmin) eqn:Eb.
        * wbind. eapply (hh_scale_wp L x safmin m) with (c := 1'); auto.
          -- destruct (Hst (hypot K al normx)) as (k & Hk1 & Hk2); auto.
             ++ apply nn_pos; [apply hypot_ok|apply hypot_ne; auto].
             ++ exists k. auto.
          -- intros k Hk. ring.
          -- intros a Ha. reflexivity.
          -- intros j b' m1 R1 R2. cbv beta iota. wbind. apply nrm2_wp; auto. intros nx1 N3 N4. apply wp_ret.
             pose proof (pos_ne _ Hsp) as Hs0. set (r := 1' /' safmin) in *.
             exists (kpow r (S j)), (kpow safmin (S j)).
             assert (Hrs : kpow r (S j) *' kpow safmin (S j) = 1') by (apply pow_inv; auto).
             assert (Hr0 : kpow r (S j) <> 0').
             { intros E. apply one_ne. rewrite <- Hrs, E. ring. }
             split; [rewrite <- Hrs; ring|]. split.
             { apply (o_nlt K HO). apply pow_pos. auto. }
             split; [exact Hr0|]. split; [intros b; apply unscale_pow|]. split; [reflexivity|].
             assert (R3 : forall k, 0 <= k < vlen x -> velt m1 x k = velt m x k *' kpow r (S j)).
             { intros k Hk. rewrite R1 by auto. ring. }
             split; [exact R3|]. split; [exact R2|]. split; [exact N4|]. split; [|reflexivity].
             intros E. apply En. apply sq0. rewrite N2.
             assert (E2 : inner K (vlen x) (velt m1 x) (velt m1 x) = kpow r (S j) *' kpow r (S j) *' inner K (vlen x) (velt m x) (velt m x)).
             { unfold inner. rewrite <- (vsum_mul_l K HR). apply vsum_ext. intros k Hk. rewrite !R3 by auto. ring. }
             rewrite E2, E in N4. transitivity (1' /' (kpow r (S j) *' kpow r (S j)) *' (kpow r (S j) *' kpow r (S j) *' inner K (vlen x) (velt m x) (velt m x))).
             ++ field. auto.
             ++ rewrite <- N4. ring.
        * apply wp_ret. exists 1', 1'. split; [ring|]. split; [apply (o_nlt K HO), (o_one K HF HO)|]. split; [apply one_ne|].
          split; [intros b; cbn [hh_unscale]; ring|]. split; [ring|]. split; [intros k Hk; ring|].
          split; [intros a Ha; reflexivity|]. split; [exact N2|]. split; [exact En|reflexivity].
      + intros (((ns & al1) & nx1) & b1) m1 (c & s & Hsc & Hs & Hc & Hun & E1 & Ex & Ho & N3 & N4 & ->). cbv beta iota.
        destruct (hh_select K flags al1 (hypot K al1 nx1) nx1 (sign_of K al)) as ((b & d) & t) eqn:Es.
        apply select_ok in Es; auto. destruct Es as (S1 & S2 & S3 & S4 & S5 & S6).
        wbind. apply scale_wp; auto. intros m2 R1 R2. wbind. apply wp_put; auto. wbind. apply wp_put; auto. apply wp_ret.
        assert (Nz : inner K (vlen x) (velt m1 x) (velt m1 x) <> 0') by (rewrite <- N3; apply sq_ne; auto).
        assert (Nz0 : inner K (vlen x) (velt m x) (velt m x) <> 0') by (rewrite <- N2; apply sq_ne; auto).
        apply HQ.
        * rewrite put_same. rewrite put_other, put_same by auto. rewrite Hun.
          eapply unscaled_res with (c := c) (a' := al1) (x' := velt m1 x); eauto.
          destruct (hh_core (vlen x) (velt m1 x) al1 (neg_of flags b) d t) as (C1 & C2); auto.
          { rewrite <- N3. rewrite <- S4. unfold neg_of. destruct (has flags ARMAS_HHNEGATIVE); ring. }
          assert (Ev : forall k, 0 <= k < vlen x + 1 ->
             vcons 1' (velt (put (put m2 (elems tau) t) (elems a11) (b *' s)) x) k = vcons 1' (fun k => velt m1 x k *' (1' /' d)) k).
          { intros k Hk. unfold vcons. destruct (k =? 0) eqn:E; [auto|]. rewrite !put_velt by (auto; lia). apply R1. lia. }
          unfold house_res. apply eqb_iff in Nz. rewrite Nz. split; [|split; [|auto]].
          -- intros i Hi. rewrite <- C1 by auto. apply reflect_ext; auto.
          -- rewrite <- C2. f_equal. apply inner_ext; auto.
        * intros a H1 H2 H3. rewrite !put_other by auto. rewrite R2, Ho by auto. reflexivity.
  Qed.

  (* ---- applying a reflector ---- *)

  Lemma axpby_wp : forall L y x b a m (Q : Z -> (Z -> T) -> Prop), vok L y -> vok L x -> disjoint y x -> vlen y = vlen x ->
    (forall m', (forall k, 0 <= k < vlen y -> velt m' y k = b *' velt m y k +' a *' velt m x k) -> only_changes y m m' -> Q 0 m') ->
    wp (armas_axpby K b y a x) L m Q.
  Proof.
    intros L y x b a m Q (V1 & W1 & L1) (V2 & W2 & L2) D H HQ.
    destruct (C09_axpby T K HR L m b y a x) as (m' & R1 & R2 & R3); auto. apply (wp_run _ _ _ _ _ _ _ _ R1). auto.
  Qed.

  Lemma axpy_wp : forall L y x a m (Q : Z -> (Z -> T) -> Prop), vok L y -> vok L x -> disjoint y x -> vlen y = vlen x ->
    (forall m', (forall k, 0 <= k < vlen y -> velt m' y k = velt m y k +' a *' velt m x k) -> only_changes y m m' -> Q 0 m') ->
    wp (armas_axpy K y a x) L m Q.
  Proof.
    intros L y x a m Q (V1 & W1 & L1) (V2 & W2 & L2) D H HQ.
    destruct (C09_axpy T K HR L m y a x) as (m' & R1 & R2 & R3); auto. apply (wp_run _ _ _ _ _ _ _ _ R1). auto.
  Qed.

  (* the thresholds of the matrix-vector operations *)
  Definition b2_ok (E : lenv) : Prop := 2 <= e_b2 E.

  (* y := y + op(A)*x, also for an empty A *)
  Lemma mvmult1_wp : forall E L y A x flags m (Q : Z -> (Z -> T) -> Prop), b2_ok E -> has flags ARMAS_ABSA = false ->
    vlen y < Z.of_nat (e_fuel E) -> vok L y -> vok L x -> mok L A -> disjoint y A -> disjoint y x ->
    vlen y = (if has flags ARMAS_TRANS then cols A else rows A) -> vlen x = (if has flags ARMAS_TRANS then rows A else cols A) ->
    (forall m', (forall k, 0 <= k < vlen y -> velt m' y k = velt m y k +' vsum K (vlen x) (fun j =>
         (if has flags ARMAS_TRANS then elt m A j k else elt m A k j) *' velt m x j)) -> only_changes y m m' -> Q 0 m') ->
    wp (l_mvmult K E 1' y 1' A x flags) L m Q.
  Proof.
    intros E L y A x flags m Q HB Hab Hf (V1 & W1 & L1) (V2 & W2 & L2) (WA & LA) D1 D2 Ey Ex HQ. unfold l_mvmult.
    pose proof WA as (A1 & A2 & A3).
    assert (Hz : rows A * cols A = 0 \/ 0 < rows A /\ 0 < cols A) by Lia.nia. destruct Hz as [Hz|(Hz1 & Hz2)].
    - exists 0, m. unfold armas_mvmult, armas_size. rewrite Hz. cbn [Z.eqb orb]. split; [reflexivity|]. apply HQ; [|intros a Ha; reflexivity].
      intros k Hk. rewrite vsum_0; [ring|]. rewrite Ex. destruct (has flags ARMAS_TRANS); Lia.nia.
    - destruct (C19_mvmult T K HR HE (e_fuel E) (e_b2 E) (e_opt E) L m 1' y 1' A x flags) as (m' & R1 & R2 & R3); auto.
      exists 0, m'. split; [exact R1|]. apply HQ; auto. intros k Hk. rewrite R2 by auto. ring.
  Qed.

  (* A := A - x*y^T *)
  Lemma mvupdate1_wp : forall E L A x y c m (Q : Z -> (Z -> T) -> Prop), b2_ok E -> rows A < Z.of_nat (e_fuel E) ->
    vok L y -> vok L x -> mok L A -> disjoint A x -> disjoint A y -> vlen x = rows A -> vlen y = cols A ->
    (forall m', (forall i j, pos A i j -> elt m' A i j = elt m A i j +' c *' (velt m x i *' velt m y j)) -> only_changes A m m' -> Q 0 m') ->
    wp (l_mvupdate K E 1' A c x y) L m Q.
  Proof.
    intros E L A x y c m Q HB Hf (V1 & W1 & L1) (V2 & W2 & L2) (WA & LA) D1 D2 Ex Ey HQ. unfold l_mvupdate.
    destruct (C20_mvupdate T K HR (e_fuel E) (e_b2 E) (e_opt E) L m 1' A c x y) as (m' & R1 & R2 & R3); auto.
    exists 0, m'. split; [exact R1|]. apply HQ; auto. intros i j Hp. rewrite R2 by auto. ring.
  Qed.

  (* element i of the matrix ( 0 A2 ) in the direction of the reflector, j across *)
  Definition aelt (left : bool) (m : Z -> T) (A2 : view) (i j : Z) : T := if left then elt m A2 i j else elt m A2 j i.

  Lemma elt_keep : forall (m m' : Z -> T) A X i j, only_changes X m m' -> disjoint X A -> pos A i j -> elt m' A i j = elt m A i j.
  Proof. intros m m' A X i j H D Hp. unfold elt. apply H. intros Hc. apply (D _ Hc). exists i, j. auto. Qed.

  Lemma velt_keep : forall (m m' : Z -> T) x X k, only_changes X m m' -> disjoint X x -> wf x -> isvec x -> 0 <= k < vlen x -> velt m' x k = velt m x k.
  Proof. intros m m' x X k H D Wx Vx Hk. rewrite !velt_vad. apply H. intros Hc. apply (D _ Hc). apply vad_cell; auto. Qed.

  Lemma disj_sym : forall A B, disjoint A B -> disjoint B A.
  Proof. intros A B D a H1 H2. apply (D a); auto. Qed.

  Lemma apply2x1_wp : forall E L t v a1 A2 w1 flags m (Q : Z -> (Z -> T) -> Prop),
    let left := has flags ARMAS_LEFT in
    b2_ok E -> vlen w1 < Z.of_nat (e_fuel E) -> rows A2 < Z.of_nat (e_fuel E) ->
    vok L v -> vok L a1 -> vok L w1 -> mok L A2 ->
    disjoint w1 v -> disjoint w1 a1 -> disjoint w1 A2 -> disjoint a1 A2 -> disjoint a1 v -> disjoint A2 v ->
    vlen w1 = vlen a1 -> (if left then cols A2 else rows A2) = vlen a1 -> (if left then rows A2 else cols A2) = vlen v ->
    (forall m', (forall i j, 0 <= i < vlen v + 1 -> 0 <= j < vlen a1 ->
         vcons (velt m' a1 j) (fun i => aelt left m' A2 i j) i =
         reflect K (vlen v + 1) t (vcons 1' (velt m v)) (vcons (velt m a1 j) (fun i => aelt left m A2 i j)) i) ->
       (forall a, ~ cell w1 a -> ~ cell a1 a -> ~ cell A2 a -> m' a = m a) -> Q 0 m') ->
    wp (if eqb K t 0' then ret 0
        else
          armas_axpby K 0' w1 1' a1 ;;
          (if has flags ARMAS_LEFT then l_mvmult K E 1' w1 1' A2 v ARMAS_TRANSA
           else l_mvmult K E 1' w1 1' A2 v 0) ;;
          armas_scale K w1 t ;;
          armas_axpy K a1 (opp K 1') w1 ;;
          (if has flags ARMAS_LEFT then l_mvupdate K E 1' A2 (opp K 1') v w1
           else l_mvupdate K E 1' A2 (opp K 1') w1 v) ;;
          ret 0) L m Q.
  Proof.
    intros E L t v a1 A2 w1 flags m Q left HB Hf1 Hf2 Vv Va Vw MA D1 D2 D3 D4 D5 D6 Ew Ea Ev HQ.
    assert (Hv0 : 0 <= vlen v) by (apply vlen_nonneg; apply Vv).
    destruct (eqb K t 0') eqn:Et.
    - apply HE in Et. apply wp_ret. apply HQ; [|auto]. intros i j Hi Hj. unfold reflect. rewrite Et. ring.
    - wbind. apply axpby_wp; auto. intros m1 R1 F1. wbind.
      apply wp_conseq with (P := fun (_ : Z) m2 => (forall j, 0 <= j < vlen a1 -> velt m2 w1 j =
         velt m a1 j +' vsum K (vlen v) (fun i => aelt left m A2 i j *' velt m v i)) /\ only_changes w1 m m2).
      { assert (F1' : forall m2, only_changes w1 m1 m2 -> only_changes w1 m m2) by (intros m2 H a Ha; rewrite H, F1; auto).
        assert (G : forall j f, 0 <= j < vlen a1 -> (forall i, 0 <= i < vlen v -> f i = aelt left m A2 i j *' velt m v i) ->
            velt m1 w1 j +' vsum K (vlen v) f = velt m a1 j +' vsum K (vlen v) (fun i => aelt left m A2 i j *' velt m v i)).
        { intros j f Hj Hf. rewrite R1 by lia. rewrite (vsum_ext K (vlen v) _ _ Hf). ring. }
        unfold left in *. clear left. destruct (has flags ARMAS_LEFT).
        - pose proof (mvmult1_wp E L w1 A2 v ARMAS_TRANSA m1) as MV. change (has ARMAS_TRANSA ARMAS_TRANS) with true in MV.
          apply MV; auto; try lia. clear MV. intros m2 R2 F2. split; [|auto].
          intros j Hj. rewrite R2 by lia. apply G; auto. intros i Hi. unfold aelt.
          rewrite (elt_keep m m1 A2 w1), (velt_keep m m1 v w1); auto; try apply Vv. split; lia.
        - pose proof (mvmult1_wp E L w1 A2 v 0 m1) as MV. change (has 0 ARMAS_TRANS) with false in MV.
          apply MV; auto; try lia. clear MV. intros m2 R2 F2. split; [|auto].
          intros j Hj. rewrite R2 by lia. apply G; auto. intros i Hi. unfold aelt.
          rewrite (elt_keep m m1 A2 w1), (velt_keep m m1 v w1); auto; try apply Vv. split; lia. }
      intros _ m2 (R2 & F2). cbv beta. wbind. apply scale_wp; auto. intros m3 R3 F3.
      assert (F3' : only_changes w1 m m3) by (intros a Ha; rewrite F3, F2; auto).
      wbind. apply axpy_wp; auto. { apply disj_sym; auto. }
      intros m4 R4 F4. wbind.
      assert (W4 : forall j, 0 <= j < vlen a1 -> velt m4 w1 j = t *' inner K (vlen v + 1) (vcons 1' (velt m v)) (vcons (velt m a1 j) (fun i => aelt left m A2 i j))).
      { intros j Hj. rewrite (velt_keep m3 m4 w1 a1) by (auto; try apply Vw; try (apply disj_sym; auto); lia).
        rewrite R3, R2 by lia. rewrite inner_vcons by auto.
        replace (inner K (vlen v) (velt m v) (fun i => aelt left m A2 i j)) with (vsum K (vlen v) (fun i => aelt left m A2 i j *' velt m v i)) by (apply vsum_ext; intros; ring). ring. }
      assert (A4 : forall j, 0 <= j < vlen a1 -> velt m4 a1 j = velt m a1 j -' velt m4 w1 j).
      { intros j Hj. rewrite R4 by lia. rewrite (velt_keep m m3 a1 w1) by (auto; apply Va).
        rewrite (velt_keep m3 m4 w1 a1) by (auto; try apply Vw; try (apply disj_sym; auto); lia). ring. }
      assert (F4' : forall a, ~ cell w1 a -> ~ cell a1 a -> m4 a = m a) by (intros a H1 H2; rewrite F4, F3' by auto; reflexivity).
      assert (V4 : forall k, 0 <= k < vlen v -> velt m4 v k = velt m v k).
      { intros k Hk. rewrite (velt_keep m3 m4 v a1), (velt_keep m m3 v w1); auto; apply Vv. }
      assert (E4 : forall i j, pos A2 i j -> elt m4 A2 i j = elt m A2 i j).
      { intros i j Hp. rewrite (elt_keep m3 m4 A2 a1), (elt_keep m m3 A2 w1); auto. }
      apply wp_conseq with (P := fun (_ : Z) m5 => (forall i j, 0 <= i < vlen v -> 0 <= j < vlen a1 ->
          aelt left m5 A2 i j = aelt left m A2 i j -' velt m v i *' velt m4 w1 j) /\ only_changes A2 m4 m5).
      { unfold left in *. clear left. unfold aelt. destruct (has flags ARMAS_LEFT).
        - apply (mvupdate1_wp E L A2 v w1); auto; try lia. { apply disj_sym; auto. }
          intros m5 R5 F5. split; [|auto]. intros i j Hi Hj. assert (Hp : pos A2 i j) by (split; lia).
          rewrite R5, E4, V4 by auto. ring.
        - apply (mvupdate1_wp E L A2 w1 v); auto; try lia. { apply disj_sym; auto. }
          intros m5 R5 F5. split; [|auto]. intros i j Hi Hj. assert (Hp : pos A2 j i) by (split; lia).
          rewrite R5, E4, V4 by auto. ring. }
      intros _ m5 (R5 & F5). cbv beta. apply wp_ret. apply HQ.
      + intros i j Hi Hj. unfold reflect. replace (t *' vcons 1' (velt m v) i *' inner K (vlen v + 1) (vcons 1' (velt m v)) (vcons (velt m a1 j) (fun i0 => aelt left m A2 i0 j)))
          with (vcons 1' (velt m v) i *' velt m4 w1 j) by (rewrite W4 by auto; ring).
        unfold vcons. destruct (i =? 0) eqn:Ei.
        * rewrite (velt_keep m4 m5 a1 A2) by (auto; try apply Va; apply disj_sym; auto). rewrite A4 by auto. ring.
        * apply R5; auto. lia.
      + intros a H1 H2 H3. rewrite F5 by auto. apply F4'; auto.
  Qed.
End A.
