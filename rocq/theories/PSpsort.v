(* PSpsort.v: sorting of compressed matrices (src/sparse/sort.c). *)
From Coq Require Import ZArith List Bool Lia Sorting.Permutation.
From Verif Require Import Mem MView MNum SpecNum Hoare MFlags MSparse SpecSparse PFrame PSparse.
Import ListNotations.
Local Open Scope Z_scope.
Local Open Scope prog_scope.
Ltac lia := first [zlia | Lia.lia].

Section Sort.
  Context {T : Type}.

  Definition segl (ix : arr Z) (v : arr T) (lo hi : Z) : list (Z * T) :=
    map (fun p => (aget ix p, aget v p)) (zr lo hi).

  Lemma segl_ext : forall ix v ix' v' lo hi,
    (forall p, lo <= p < hi -> aget ix' p = aget ix p /\ aget v' p = aget v p) ->
    segl ix' v' lo hi = segl ix v lo hi.
  Proof.
    intros ix v ix' v' lo hi H. unfold segl. apply map_ext_zr. intros p Hp. destruct (H p Hp) as [-> ->]. reflexivity.
  Qed.

  Lemma segl_app : forall ix v lo mid hi, lo <= mid <= hi ->
    segl ix v lo hi = segl ix v lo mid ++ segl ix v mid hi.
  Proof. intros. unfold segl. rewrite (zr_app lo mid hi) by auto. apply map_app. Qed.

  (* two neighbours exchanged *)
  Lemma segl_swap : forall ix v ix' v' lo hi p, lo <= p -> p + 1 < hi ->
    aget ix' p = aget ix (p + 1) -> aget v' p = aget v (p + 1) ->
    aget ix' (p + 1) = aget ix p -> aget v' (p + 1) = aget v p ->
    (forall k, k <> p -> k <> p + 1 -> aget ix' k = aget ix k /\ aget v' k = aget v k) ->
    Permutation (segl ix' v' lo hi) (segl ix v lo hi).
  Proof.
    intros ix v ix' v' lo hi p H1 H2 E1 E2 E3 E4 Ho.
    rewrite (segl_app ix' v' lo p hi), (segl_app ix v lo p hi) by lia.
    rewrite (segl_ext ix v ix' v' lo p) by (intros k Hk; apply Ho; lia).
    apply Permutation_app_head.
    rewrite (segl_app ix' v' p (p + 1 + 1) hi), (segl_app ix v p (p + 1 + 1) hi) by lia.
    rewrite (segl_ext ix v ix' v' (p + 1 + 1) hi) by (intros k Hk; apply Ho; lia).
    apply Permutation_app_tail. unfold segl. rewrite zr_snoc by lia. rewrite zr_one. cbn [app map].
    rewrite E1, E2, E3, E4. constructor.
  Qed.

  Definition asc (ix : arr Z) (lo hi : Z) : Prop :=
    forall p q, lo <= p -> p < q -> q < hi -> aget ix p <= aget ix q.

  Definition same_out (lo hi : Z) (ix ix' : arr Z) (v v' : arr T) : Prop :=
    alen ix' = alen ix /\ alen v' = alen v /\
    (forall p, p < lo \/ hi <= p -> aget ix' p = aget ix p /\ aget v' p = aget v p).

  Lemma sort_inner_wp : forall off k ix v L m (Q : arr Z * arr T -> (Z -> T) -> Prop),
    0 <= off -> 1 <= k -> off + k < alen ix -> off + k < alen v ->
    asc ix off (off + k) ->
    (forall ix' v', same_out off (off + k + 1) ix ix' v v' ->
       asc ix' off (off + k + 1) ->
       Permutation (segl ix' v' off (off + k + 1)) (segl ix v off (off + k + 1)) -> Q (ix', v') m) ->
    wp (sort_inner off k (ix, v)) L m Q.
  Proof.
    intros off k ix v L m Q Hoff Hk Hi Hv Hasc HQ. unfold sort_inner. cbn [fst snd]. wbind.
    apply wp_while with (n := k) (I := fun j s m' => m' = m /\ fst (fst s) = j /\ j <= k /\
      let ix' := snd (fst s) in let v' := snd s in
      same_out off (off + k + 1) ix ix' v v' /\
      Permutation (segl ix' v' off (off + k + 1)) (segl ix v off (off + k + 1)) /\
      (forall p q, off <= p -> p < q -> q <= off + k -> p <> off + j -> q <> off + j -> aget ix' p <= aget ix' q) /\
      (forall q, off + j < q -> q <= off + k -> aget ix' (off + j) <= aget ix' q)); try lia.
    - cbn [fst snd]. repeat split; auto; try lia. intros p q H1 H2 H3 H4 H5. apply Hasc; lia.
    - intros j [[j0 ix1] v1] m' Hj (-> & Ej & Hjk & (Li & Lv & Ho) & Hp & Hs & Hm). cbn [fst snd] in *. subst j0.
      destruct (Z.ltb_spec 0 j) as [Hpos|Hz]; cbn [andM].
      + wbind. apply aread_wp; [lia|]. wbind. apply aread_wp; [lia|]. apply wp_ret.
        destruct (Z.ltb_spec (aget ix1 (off + j)) (aget ix1 (off + (j - 1)))) as [Hlt|Hge].
        * split; [lia|].
          wbind. apply aread_wp; [lia|]. wbind. apply aread_wp; [lia|]. wbind. apply aread_wp; [lia|].
          wbind. apply awrite_wp; [lia|]. wbind. apply aread_wp; [lia|]. wbind. apply awrite_wp; [lia|].
          wbind. apply awrite_wp; [rewrite ?aset_len; lia|]. wbind. apply awrite_wp; [rewrite ?aset_len; lia|].
          apply wp_ret. cbn [fst snd].
          set (ix2 := aset (aset ix1 (off + j) _) (off + (j - 1)) _).
          set (v2 := aset (aset v1 (off + j) _) (off + (j - 1)) _).
          assert (A1 : aget ix2 (off + (j - 1)) = aget ix1 (off + j)) by apply aset_same.
          assert (A2 : aget ix2 (off + j) = aget ix1 (off + (j - 1))).
          { unfold ix2. rewrite aset_other by lia. apply aset_same. }
          assert (A3 : aget v2 (off + (j - 1)) = aget v1 (off + j)) by apply aset_same.
          assert (A4 : aget v2 (off + j) = aget v1 (off + (j - 1))).
          { unfold v2. rewrite aset_other by lia. apply aset_same. }
          assert (A5 : forall p, p <> off + j -> p <> off + (j - 1) -> aget ix2 p = aget ix1 p /\ aget v2 p = aget v1 p).
          { intros p H1 H2. unfold ix2, v2. rewrite !aset_other by lia. auto. }
          split; [auto|]. split; [auto|]. split; [lia|]. split; [|split; [|split]].
          -- split; [exact Li|]. split; [exact Lv|]. intros p Hp'. destruct (A5 p) as [-> ->]; [lia|lia|]. apply Ho. exact Hp'.
          -- etransitivity; [|exact Hp]. apply segl_swap with (p := off + (j - 1)); try lia;
               replace (off + (j - 1) + 1) with (off + j) by lia; auto.
          -- intros p q H1 H2 H3 H4 H5.
             destruct (Z.eq_dec q (off + j)) as [->|Hq].
             ++ destruct (A5 p ltac:(lia) ltac:(lia)) as [-> _]. rewrite A2. apply Hs; lia.
             ++ destruct (A5 q ltac:(lia) ltac:(lia)) as [-> _].
                destruct (Z.eq_dec p (off + j)) as [->|Hpj].
                ** rewrite A2. apply Hs; lia.
                ** destruct (A5 p ltac:(lia) ltac:(lia)) as [-> _]. apply Hs; lia.
          -- intros q H1 H2. rewrite A1. destruct (Z.eq_dec q (off + j)) as [->|Hq].
             ++ rewrite A2. lia.
             ++ destruct (A5 q ltac:(lia) ltac:(lia)) as [-> _]. apply Hm; lia.
        * apply wp_ret. apply HQ.
          -- split; [exact Li|]. split; [exact Lv|]. exact Ho.
          -- intros p q H1 H2 H3. destruct (Z.eq_dec q (off + j)) as [->|Hq].
             ++ destruct (Z.eq_dec p (off + (j - 1))) as [->|Hp'].
                ** lia.
                ** pose proof (Hs p (off + (j - 1)) ltac:(lia) ltac:(lia) ltac:(lia) ltac:(lia) ltac:(lia)). lia.
             ++ destruct (Z.eq_dec p (off + j)) as [->|Hp']; [apply Hm; lia|]. apply Hs; lia.
          -- exact Hp.
      + apply wp_ret. apply wp_ret. assert (j = 0) by lia. subst j. apply HQ.
        * split; [exact Li|]. split; [exact Lv|]. exact Ho.
        * intros p q H1 H2 H3. destruct (Z.eq_dec p (off + 0)) as [->|Hp']; [apply Hm; lia|]. apply Hs; lia.
        * exact Hp.
  Qed.

  Lemma simple_sort_wp : forall off n ix v L m (Q : arr Z * arr T -> (Z -> T) -> Prop),
    0 <= off -> 0 <= n -> off + n <= alen ix -> off + n <= alen v ->
    (forall ix' v', same_out off (off + n) ix ix' v v' ->
       asc ix' off (off + n) ->
       Permutation (segl ix' v' off (off + n)) (segl ix v off (off + n)) -> Q (ix', v') m) ->
    wp (simple_sort off n (ix, v)) L m Q.
  Proof.
    intros off n ix v L m Q Hoff Hn Hi Hv HQ. unfold simple_sort.
    apply wp_for1_acc with (I := fun k st m' => m' = m /\
      same_out off (off + n) ix (fst st) v (snd st) /\ asc (fst st) off (off + k) /\
      Permutation (segl (fst st) (snd st) off (off + n)) (segl ix v off (off + n))).
    - cbn [fst snd]. split; [auto|]. split; [repeat split; auto|]. split; [|reflexivity].
      intros p q H1 H2 H3. lia.
    - intros k [ix1 v1] m' Hk (-> & (Li & Lv & Ho) & Ha & Hp). cbn [fst snd] in *.
      apply sort_inner_wp; try lia; auto.
      intros ix2 v2 (Li2 & Lv2 & Ho2) Ha2 Hp2. cbn [fst snd]. split; [auto|]. split; [|split].
      + split; [lia|]. split; [lia|]. intros p Hpo. destruct (Ho2 p ltac:(lia)) as [-> ->]. apply Ho. exact Hpo.
      + rewrite Z.add_assoc. exact Ha2.
      + etransitivity; [|exact Hp].
        rewrite (segl_app ix2 v2 off (off + k + 1)), (segl_app ix1 v1 off (off + k + 1)) by lia.
        apply Permutation_app; [exact Hp2|].
        rewrite (segl_ext ix1 v1 ix2 v2); [reflexivity|]. intros p Hpp. apply Ho2. lia.
    - intros [ix1 v1] m' (-> & Hs & Ha & Hp). cbn [fst snd] in *. apply HQ; auto.
      intros p q H1 H2 H3. apply Ha; lia.
  Qed.

  Lemma compressed_sort_wp : forall (A : sparse T) L m (Q : sparse T -> (Z -> T) -> Prop),
    let f := aget (sp_ptr A) in
    0 <= sp_nptr A -> alen (sp_ptr A) = sp_nptr A + 1 -> f 0 = 0 ->
    (forall j, 0 <= j < sp_nptr A -> f j <= f (j + 1)) ->
    f (sp_nptr A) <= alen (sp_ix A) -> f (sp_nptr A) <= alen (sp_v A) ->
    (forall ix v, alen ix = alen (sp_ix A) -> alen v = alen (sp_v A) ->
       (forall j, 0 <= j < sp_nptr A -> asc ix (f j) (f (j + 1)) /\
          Permutation (segl ix v (f j) (f (j + 1))) (segl (sp_ix A) (sp_v A) (f j) (f (j + 1)))) ->
       Q (sp_with_arrays A v (sp_ptr A) ix) m) ->
    wp (compressed_sort A) L m Q.
  Proof.
    intros A L m Q f Hn Hl H0 Hmono Hi Hv HQ. unfold compressed_sort.
    assert (M0 : forall a b, 0 <= a <= b -> b <= sp_nptr A -> f a <= f b).
    { intros a b Hab. pattern b. apply Zlt_lower_bound_ind with (z := a); [|lia].
      intros x IH Hx Hb. destruct (Z.eq_dec x a) as [->|]; [lia|].
      pose proof (Hmono (x - 1) ltac:(lia)) as H1. replace (x - 1 + 1) with x in H1 by lia.
      specialize (IH (x - 1) ltac:(lia) ltac:(lia)). lia. }
    wbind. apply wp_for1_acc with (I := fun k st m' => m' = m /\
      alen (fst st) = alen (sp_ix A) /\ alen (snd st) = alen (sp_v A) /\
      (forall p, f k <= p -> aget (fst st) p = aget (sp_ix A) p /\ aget (snd st) p = aget (sp_v A) p) /\
      (forall j, 0 <= j < k -> asc (fst st) (f j) (f (j + 1)) /\
          Permutation (segl (fst st) (snd st) (f j) (f (j + 1))) (segl (sp_ix A) (sp_v A) (f j) (f (j + 1))))).
    - cbn [fst snd]. repeat split; auto; lia.
    - intros k [ix1 v1] m' Hk (-> & Li & Lv & Ho & Hd). cbn [fst snd] in *.
      wbind. apply aread_wp; [lia|]. wbind. apply aread_wp; [lia|]. fold f.
      pose proof (M0 0 k ltac:(lia) ltac:(lia)) as M1. pose proof (M0 (k + 1) (sp_nptr A) ltac:(lia) ltac:(lia)) as M2.
      pose proof (Hmono k Hk) as M3.
      apply simple_sort_wp; try lia. replace (f k + (f (k + 1) - f k)) with (f (k + 1)) by lia.
      intros ix2 v2 (Li2 & Lv2 & Ho2) Ha2 Hp2. cbn [fst snd]. split; [auto|]. split; [lia|]. split; [lia|]. split.
      + intros p Hp. destruct (Ho2 p ltac:(lia)) as [-> ->]. apply Ho. lia.
      + intros j Hj. destruct (Z.eq_dec j k) as [->|Hne].
        * split; [exact Ha2|]. etransitivity; [exact Hp2|].
          rewrite (segl_ext (sp_ix A) (sp_v A) ix1 v1); [reflexivity|]. intros p Hp. apply Ho. lia.
        * pose proof (M0 (j + 1) k ltac:(lia) ltac:(lia)) as M4. destruct (Hd j ltac:(lia)) as [D1 D2].
          assert (X : forall p, f j <= p < f (j + 1) -> aget ix2 p = aget ix1 p /\ aget v2 p = aget v1 p).
          { intros p Hp. apply Ho2. lia. }
          split.
          -- intros p q H1 H2 H3. destruct (X p ltac:(lia)) as [-> _]. destruct (X q ltac:(lia)) as [-> _]. apply D1; auto.
          -- rewrite (segl_ext ix1 v1 ix2 v2) by exact X. exact D2.
    - intros [ix1 v1] m' (-> & Li & Lv & Ho & Hd). cbn [fst snd] in *. rewrite Z.max_r in Hd by lia.
      apply wp_ret. apply HQ; auto.
  Qed.
End Sort.
