(* PHouse2.v: reflectors of the form I - 2*v*v^T. *)
From Coq Require Import ZArith Lia Bool ZifyBool Ring Field.
From Verif Require Import Mem MView SpecView PView PSub Hoare MFlags MBase MCopy PUpd PCopy
  MNum SpecNum MBlas1 PSum PBlas1 MElem PElem MBlas2 PMvec PBlas2 PFrame MTrsm PTrsm PNorm MLap PLap
  MHouse SpecHouse PHouse.
Local Open Scope Z_scope.
Local Open Scope prog_scope.

Ltac lia := nobool; zlia.

Section Q.
  Context {T : Type} (K : num T).
  Hypotheses (HF : is_field K) (HO : is_ordered K) (HE : eqb_ok K) (HS : sqrt_ok K).
  Let HF' : field_theory (zero K) (one K) (add K) (mul K) (sub K) (opp K) (div K)
    (fun x => div K (one K) x) eq := HF.
  Add Field KfieldH2 : HF'.
  Let HR : is_ring K := Field_theory.F_R HF.
  Local Notation "a +' b" := (add K a b) (at level 50, left associativity).
  Local Notation "a -' b" := (sub K a b) (at level 50, left associativity).
  Local Notation "a *' b" := (mul K a b) (at level 40, left associativity).
  Local Notation "a /' b" := (div K a b) (at level 40, left associativity).
  Local Notation "0'" := (zero K).
  Local Notation "1'" := (one K).

  Lemma un_core : forall n x a b d e, 0 <= n -> e <> 0' -> d = a -' b -> b *' b = a *' a +' inner K n x x ->
    e *' e = inner K n x x +' d *' d ->
    let v := vcons (d /' e) (fun k => x k *' (1' /' e)) in
    (forall i, 0 <= i < n + 1 -> reflect K (n + 1) (1' +' 1') v (vcons a x) i = vcons b (fun _ => 0') i) /\
    inner K (n + 1) v v = 1'.
  Proof.
    intros n x a b d e Hn He Ed Eb Ee v.
    assert (EN : inner K n x x = b *' b -' a *' a) by (rewrite Eb; ring).
    assert (Ev : forall y, inner K n (fun k => x k *' (1' /' e)) y = (1' /' e) *' inner K n x y).
    { intros y. rewrite <- (inner_mul K HF). apply vsum_ext. intros k Hk. ring. }
    (* e*e = -2*b*d and v.(a,x) = -b*d/e *)
    assert (E2 : e *' e = opp K ((1' +' 1') *' b *' d)) by (rewrite Ee, EN, Ed; ring).
    assert (Evz : inner K (n + 1) v (vcons a x) = opp K (b *' d) /' e).
    { unfold v. rewrite (inner_vcons K HF), Ev, EN by auto.
      transitivity ((d *' a +' (b *' b -' a *' a)) /' e); [field; auto|]. f_equal. rewrite Ed. ring. }
    assert (E3 : forall c, (1' +' 1') *' (c /' e) *' (opp K (b *' d) /' e) = c).
    { intros c. transitivity (c *' (opp K ((1' +' 1') *' b *' d)) /' (e *' e)); [field; auto|]. rewrite <- E2. field. auto. }
    split.
    - intros i Hi. unfold reflect. rewrite Evz. unfold v, vcons. destruct (i =? 0) eqn:Ei.
      + rewrite E3. rewrite Ed. ring.
      + replace (x (i - 1) *' (1' /' e)) with (x (i - 1) /' e) by (field; auto). rewrite E3. ring.
    - unfold v. rewrite (inner_vcons K HF), Ev, (inner_sym K HF n x), Ev by auto.
      transitivity ((inner K n x x +' d *' d) /' (e *' e)); [field; auto|]. rewrite <- Ee. field. auto.
  Qed.

  (* what the routine leaves when x is not zero: the vector v of H = I - 2*v*v^T and beta in tau *)
  Definition unscaled_res' (flags n : Z) (a : T) (x : Z -> T) (b v0 : T) (v : Z -> T) : Prop :=
    (forall i, 0 <= i < n + 1 -> reflect K (n + 1) (1' +' 1') (vcons v0 v) (vcons a x) i = vcons b (fun _ => 0') i) /\
    inner K (n + 1) (vcons v0 v) (vcons v0 v) = 1' /\
    (has flags ARMAS_NONNEG = true -> ltb K b 0' = false).

  Lemma unscaled_wp : forall L x0 x tau flags m (Q : Z -> (Z -> T) -> Prop), vok L x ->
    L (elems x0) = true -> L (elems tau) = true ->
    ~ cell x (elems x0) -> ~ cell x (elems tau) -> elems x0 <> elems tau ->
    (forall m', (if eqb K (inner K (vlen x) (velt m x) (velt m x)) 0'
         then m' (elems tau) = m (elems x0) /\ m' (elems x0) = m (elems x0) /\ (forall k, 0 <= k < vlen x -> velt m' x k = velt m x k)
         else unscaled_res' flags (vlen x) (m (elems x0)) (velt m x) (m' (elems tau)) (m' (elems x0)) (velt m' x)) ->
       (forall a, ~ cell x a -> a <> elems x0 -> a <> elems tau -> m' a = m a) -> Q 0 m') ->
    wp (hhcompute_unscaled K x0 x tau flags) L m Q.
  Proof.
    intros L x0 x tau flags m Q V La Lt Na Nt Nat HQ.
    pose proof addr0 as Z0.
    assert (Hlen : 0 <= vlen x) by (apply vlen_nonneg; apply V).
    assert (V' : wf x /\ isvec x) by (split; apply V).
    unfold hhcompute_unscaled, armas_get_unsafe, armas_set_unsafe. rewrite !Z0. wbind. apply (nrm2_wp K HF HO HE HS); auto. intros normx N1 N2.
    destruct (eqb K normx 0') eqn:En.
    - apply HE in En. wbind. apply wp_rd; auto. wbind. apply wp_put; auto. apply wp_ret. apply HQ.
      + replace (eqb K (inner K (vlen x) (velt m x) (velt m x)) 0') with true.
        * rewrite put_same, put_other by auto. split; [auto|]. split; [auto|]. intros k Hk. apply put_velt; auto.
        * symmetry. apply HE. rewrite <- N2, En. ring.
      + intros a _ _ Ha. apply put_other; auto.
    - apply (eqb_iff K HE) in En. wbind. apply wp_rd; auto. set (al := m (elems x0)). cbv zeta.
      set (fl := if has flags ARMAS_NONNEG then ARMAS_NONNEG else 0).
      assert (F1 : has fl ARMAS_HHNEGATIVE = false) by (unfold fl; destruct (has flags ARMAS_NONNEG); reflexivity).
      assert (F2 : has fl ARMAS_NONNEG = has flags ARMAS_NONNEG) by (unfold fl; destruct (has flags ARMAS_NONNEG); reflexivity).
      destruct (hh_select K fl al (hypot K al normx) normx (sign_of K al)) as ((b & d) & t) eqn:Es.
      match goal with |- wp (match ?e with (_, _) => _ end) _ _ _ => assert (Ee : e = (b, d, hypot K normx d)) end.
      { unfold hh_select in Es. rewrite F1, F2 in Es. destruct (has flags ARMAS_NONNEG).
        - injection Es as <- <- _. destruct (negb (ltb K 0' al)); reflexivity.
        - injection Es as <- <- _. reflexivity. }
      rewrite Ee. clear Ee.
      apply (select_ok K HF HO HS) in Es; auto. destruct Es as (S1 & S2 & S3 & S4 & S5 & S6).
      unfold neg_of in *. rewrite F1 in *. rewrite F2 in S6.
      destruct (hypot_ok K HF HO HS normx d) as (D1 & D2). pose proof (hypot_ne K HF HO HS normx d S2) as D3.
      set (e := hypot K normx d) in *. clearbody e.
      wbind. apply wp_put; auto. wbind. apply (scale_wp K); auto. intros m2 R1 R2. wbind. apply wp_put; auto. apply wp_ret.
      assert (Nz0 : inner K (vlen x) (velt m x) (velt m x) <> 0') by (rewrite <- N2; apply (sq_ne K HF HO); auto).
      apply HQ.
      + apply (eqb_iff K HE) in Nz0. rewrite Nz0. rewrite put_same, put_other by auto. rewrite (R2 (elems x0)), put_same by auto.
        destruct (un_core (vlen x) (velt m x) al b d e) as (C1 & C2); auto.
        { rewrite <- N2. exact S4. }
        { rewrite <- N2. exact D2. }
        assert (Ev : forall k, 0 <= k < vlen x + 1 -> vcons (d /' e) (velt (put m2 (elems tau) b) x) k = vcons (d /' e) (fun k => velt m x k *' (1' /' e)) k).
        { intros k Hk. unfold vcons. destruct (k =? 0) eqn:E; [auto|]. rewrite put_velt, R1, put_velt by (auto; lia). reflexivity. }
        split; [|split; auto].
        * intros i Hi. rewrite <- C1 by auto. apply reflect_ext; auto.
        * rewrite <- C2. apply inner_ext; auto.
      + intros a H1 H2 H3. rewrite put_other by auto. rewrite R2 by auto. apply put_other; auto.
  Qed.
End Q.
