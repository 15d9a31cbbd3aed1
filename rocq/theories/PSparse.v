(* PSparse.v: lemmas about the sparse matrix model. *)
From Coq Require Import ZArith List Bool Lia Sorting.Permutation.
From Verif Require Import Mem MView MNum SpecNum Hoare MFlags MSparse SpecSparse PFrame.
Import ListNotations.
Local Open Scope Z_scope.
Local Open Scope prog_scope.
Ltac lia := first [zlia | Lia.lia].

(* ---- ranges ---- *)
Lemma zr_nil : forall lo hi, hi <= lo -> zr lo hi = [].
Proof. intros lo hi H. unfold zr. replace (Z.to_nat (hi - lo)) with 0%nat by lia. reflexivity. Qed.

Lemma zr_snoc : forall lo hi, lo <= hi -> zr lo (hi + 1) = zr lo hi ++ [hi].
Proof.
  intros lo hi H. unfold zr. replace (Z.to_nat (hi + 1 - lo)) with (S (Z.to_nat (hi - lo))) by lia.
  rewrite seq_S, map_app. f_equal. cbn [map]. f_equal. lia.
Qed.

Lemma zr_app : forall lo mid hi, lo <= mid <= hi -> zr lo hi = zr lo mid ++ zr mid hi.
Proof.
  intros lo mid hi H.
  assert (X : forall n : nat, zr lo (mid + Z.of_nat n) = zr lo mid ++ zr mid (mid + Z.of_nat n)).
  { induction n as [|n IH].
    - replace (mid + Z.of_nat 0) with mid by lia. rewrite (zr_nil mid mid) by lia. rewrite app_nil_r. reflexivity.
    - replace (mid + Z.of_nat (S n)) with (mid + Z.of_nat n + 1) by lia.
      rewrite !zr_snoc by lia. rewrite IH, app_assoc. reflexivity. }
  specialize (X (Z.to_nat (hi - mid))). replace (mid + Z.of_nat (Z.to_nat (hi - mid))) with hi in X by lia. exact X.
Qed.

Lemma zr_one : forall lo, zr lo (lo + 1) = [lo].
Proof. intros lo. rewrite zr_snoc by lia. rewrite zr_nil by lia. reflexivity. Qed.

Lemma zr_cons : forall lo hi, lo < hi -> zr lo hi = lo :: zr (lo + 1) hi.
Proof. intros lo hi H. rewrite (zr_app lo (lo + 1) hi) by lia. rewrite zr_one. reflexivity. Qed.

Lemma zr_in : forall lo hi x, In x (zr lo hi) <-> lo <= x < hi.
Proof.
  intros lo hi x. unfold zr. rewrite in_map_iff. split.
  - intros (k & E & Hk). apply in_seq in Hk. lia.
  - intros H. exists (Z.to_nat (x - lo)). split; [lia|]. apply in_seq. lia.
Qed.

Lemma zr_length : forall lo hi, length (zr lo hi) = Z.to_nat (hi - lo).
Proof. intros. unfold zr. rewrite map_length, seq_length. reflexivity. Qed.

Lemma map_ext_zr : forall B (f g : Z -> B) lo hi, (forall x, lo <= x < hi -> f x = g x) ->
  map f (zr lo hi) = map g (zr lo hi).
Proof. intros B f g lo hi H. apply map_ext_in. intros x Hx. apply H. apply zr_in; auto. Qed.

Lemma flat_map_ext_zr : forall B (f g : Z -> list B) lo hi, (forall x, lo <= x < hi -> f x = g x) ->
  flat_map f (zr lo hi) = flat_map g (zr lo hi).
Proof.
  intros B f g lo hi H. rewrite !flat_map_concat_map. f_equal. apply map_ext_zr; auto.
Qed.

Lemma flat_map_snoc : forall A B (f : A -> list B) l a, flat_map f (l ++ [a]) = flat_map f l ++ f a.
Proof. intros. rewrite flat_map_app. cbn [flat_map]. rewrite app_nil_r. reflexivity. Qed.

(* ---- arrays ---- *)
Section Arr.
  Context {T : Type}.

  Lemma aread_wp : forall B (a : arr B) i L (m : Z -> T) (Q : B -> (Z -> T) -> Prop),
    0 <= i < alen a -> Q (aget a i) m -> wp (aread a i) L m Q.
  Proof.
    intros B a i L m Q H HQ. unfold aread.
    replace ((0 <=? i) && (i <? alen a)) with true; [apply wp_ret; exact HQ|].
    symmetry. apply andb_true_iff. split; [apply Z.leb_le|apply Z.ltb_lt]; lia.
  Qed.

  Lemma awrite_wp : forall B (a : arr B) i v L (m : Z -> T) (Q : arr B -> (Z -> T) -> Prop),
    0 <= i < alen a -> Q (aset a i v) m -> wp (awrite a i v) L m Q.
  Proof.
    intros B a i v L m Q H HQ. unfold awrite.
    replace ((0 <=? i) && (i <? alen a)) with true; [apply wp_ret; exact HQ|].
    symmetry. apply andb_true_iff. split; [apply Z.leb_le|apply Z.ltb_lt]; lia.
  Qed.

  Lemma aset_len : forall B (a : arr B) i v, alen (aset a i v) = alen a.
  Proof. reflexivity. Qed.

  Lemma aset_same : forall B (a : arr B) i v, aget (aset a i v) i = v.
  Proof. intros. cbn. rewrite Z.eqb_refl. reflexivity. Qed.

  Lemma aset_other : forall B (a : arr B) i v k, k <> i -> aget (aset a i v) k = aget a k.
  Proof. intros B a i v k H. cbn. destruct (Z.eqb_spec k i); [contradiction|reflexivity]. Qed.

  (* while loop rule: the invariant says how many more rounds are possible *)
  Lemma wp_while : forall A (cond : A -> M T bool) (body : A -> M T A) L (I : Z -> A -> (Z -> T) -> Prop) (Q : A -> (Z -> T) -> Prop)
    (fuel : nat) n a m,
    n < Z.of_nat fuel -> 0 <= n -> I n a m ->
    (forall n a m, 0 <= n -> I n a m ->
       wp (cond a) L m (fun b m' => if b then 0 < n /\ wp (body a) L m' (fun a' m'' => I (n - 1) a' m'') else Q a m')) ->
    wp (while_do fuel cond body a) L m Q.
  Proof.
    intros A cond body L I Q fuel. induction fuel as [|fuel IH]; intros n a m Hf Hn HI Hstep; [lia|].
    cbn [while_do]. apply wp_bind. eapply wp_conseq; [apply (Hstep n a m Hn HI)|].
    intros b m' H. cbn beta in H. destruct b; [|apply wp_ret; exact H].
    destruct H as [Hp H]. apply wp_bind. eapply wp_conseq; [exact H|].
    intros a' m'' HI'. cbn beta. apply (IH (n - 1)); auto; lia.
  Qed.
End Arr.

(* ---- grouping a list by a key ---- *)
Section Group.
  Context {E : Type} (line : E -> Z).

  Definition cnt (j : Z) (l : list E) : Z := Z.of_nat (length (filter (fun e => line e =? j) l)).
  Definition start (j : Z) (l : list E) : Z := Z.of_nat (length (filter (fun e => line e <? j) l)).

  Lemma cnt_nil : forall j, cnt j [] = 0.
  Proof. reflexivity. Qed.

  Lemma cnt_app : forall j a b, cnt j (a ++ b) = cnt j a + cnt j b.
  Proof. intros. unfold cnt. rewrite filter_app, app_length. lia. Qed.

  Lemma cnt_one : forall j e, cnt j [e] = if line e =? j then 1 else 0.
  Proof. intros. unfold cnt. cbn [filter]. destruct (line e =? j); reflexivity. Qed.

  Lemma cnt_pos : forall j l, 0 <= cnt j l.
  Proof. intros. unfold cnt. lia. Qed.

  Lemma start_next : forall j l, start (j + 1) l = start j l + cnt j l.
  Proof.
    intros j l. unfold start, cnt. induction l as [|e l IH]; [reflexivity|]. cbn [filter].
    destruct (Z.ltb_spec (line e) (j + 1)), (Z.ltb_spec (line e) j), (Z.eqb_spec (line e) j);
      cbn [length]; lia.
  Qed.

  Lemma start_0 : forall l, (forall e, In e l -> 0 <= line e) -> start 0 l = 0.
  Proof.
    intros l H. unfold start. induction l as [|e l IH]; [reflexivity|]. cbn [filter].
    pose proof (H e (or_introl eq_refl)). destruct (Z.ltb_spec (line e) 0); [lia|].
    apply IH. intros; apply H; right; auto.
  Qed.

  Lemma start_all : forall n l, (forall e, In e l -> line e < n) -> start n l = Z.of_nat (length l).
  Proof.
    intros n l H. unfold start. induction l as [|e l IH]; [reflexivity|]. cbn [filter].
    pose proof (H e (or_introl eq_refl)). destruct (Z.ltb_spec (line e) n); [|lia]. cbn [length].
    assert (forall e, In e l -> line e < n) by (intros; apply H; right; auto). specialize (IH H2). lia.
  Qed.

  Lemma start_mono : forall i j l, i <= j -> start i l <= start j l.
  Proof.
    intros i j l H. unfold start. induction l as [|e l IH]; [cbn; lia|]. cbn [filter].
    destruct (Z.ltb_spec (line e) i), (Z.ltb_spec (line e) j); cbn [length]; lia.
  Qed.

  Lemma cnt_le : forall j a b, cnt j a <= cnt j (a ++ b).
  Proof. intros. rewrite cnt_app. pose proof (cnt_pos j b). lia. Qed.

  Lemma group_perm : forall n (l : list E), (forall e, In e l -> 0 <= line e < n) ->
    Permutation (flat_map (fun j => filter (fun e => line e =? j) l) (zr 0 n)) l.
  Proof.
    intros n l. induction l as [|e l IH]; intros H.
    - cbn [filter]. assert (X : forall k : list Z, flat_map (fun _ => @nil E) k = []).
      { induction k as [|a k IHk]; cbn; auto. } rewrite X. constructor.
    - assert (He : 0 <= line e < n) by (apply H; left; auto).
      rewrite (zr_app 0 (line e) n) by lia. rewrite (zr_cons (line e) n) by lia.
      rewrite flat_map_app. cbn [flat_map].
      assert (X : forall lo hi, (hi <= line e \/ line e < lo) ->
        flat_map (fun j => filter (fun e0 => line e0 =? j) (e :: l)) (zr lo hi) =
        flat_map (fun j => filter (fun e0 => line e0 =? j) l) (zr lo hi)).
      { intros lo hi Hd. apply flat_map_ext_zr. intros x Hx. cbn [filter].
        destruct (Z.eqb_spec (line e) x); [lia|reflexivity]. }
      rewrite X by lia. rewrite X by lia. cbn [filter]. rewrite Z.eqb_refl.
      cbn [app]. rewrite <- Permutation_middle. constructor.
      assert (IH' : Permutation (flat_map (fun j => filter (fun e => line e =? j) l) (zr 0 n)) l)
        by (apply IH; intros; apply H; right; auto).
      rewrite (zr_app 0 (line e) n) in IH' by lia. rewrite (zr_cons (line e) n) in IH' by lia.
      rewrite flat_map_app in IH'. cbn [flat_map] in IH'. exact IH'.
  Qed.
End Group.

Lemma filter_map_comm : forall A B (f : A -> B) p (l : list A), filter p (map f l) = map f (filter (fun a => p (f a)) l).
Proof.
  intros A B f p l. induction l as [|a l IH]; [reflexivity|]. cbn [map filter].
  destruct (p (f a)); cbn [map]; rewrite IH; reflexivity.
Qed.

Lemma cnt_map : forall E F (g : E -> F) (line : F -> Z) j l,
  cnt (fun e => line (g e)) j l = cnt line j (map g l).
Proof. intros. unfold cnt. rewrite filter_map_comm, map_length. reflexivity. Qed.

Lemma start_map : forall E F (g : E -> F) (line : F -> Z) j l,
  start (fun e => line (g e)) j l = start line j (map g l).
Proof. intros. unfold start. rewrite filter_map_comm, map_length. reflexivity. Qed.

(* ---- counting sort ---- *)
Section Count.
  Context {T : Type}.
  Notation item := (Z * Z * T)%type.     (* line, index, value *)
  Definition iline (e : item) : Z := fst (fst e).
  Definition ipair (e : item) : Z * T := (snd (fst e), snd e).

  (* one round of the counting loops *)
  Lemma count_step : forall (ptr : arr Z) n done c L (m : Z -> T) (Q : arr Z -> (Z -> T) -> Prop),
    n < alen ptr ->
    (forall j, 0 <= j < n -> aget ptr j = cnt id j done) -> 0 <= c < n ->
    (forall ptr', alen ptr' = alen ptr -> (forall k, n <= k -> aget ptr' k = aget ptr k) ->
       (forall j, 0 <= j < n -> aget ptr' j = cnt id j (done ++ [c])) -> Q ptr' m) ->
    wp (t <- aread ptr c ;; awrite ptr c (t + 1)) L m Q.
  Proof.
    intros ptr n done c L m Q Hn HI Hc HQ. wbind. apply aread_wp; [lia|]. apply awrite_wp; [lia|].
    apply HQ; [reflexivity| |].
    - intros k Hk. apply aset_other. lia.
    - intros j Hj. rewrite cnt_app, cnt_one. unfold id at 2.
      destruct (Z.eqb_spec c j) as [->|Hne].
      + rewrite aset_same, HI by lia. reflexivity.
      + rewrite aset_other by lia. rewrite HI by lia. lia.
  Qed.

  Lemma cumulate_wp : forall N (ptr : arr Z) lines L (m : Z -> T) (Q : arr Z * Z -> (Z -> T) -> Prop),
    0 <= N <= alen ptr -> (forall j, In j lines -> 0 <= j) ->
    (forall j, 0 <= j < N -> aget ptr j = cnt id j lines) ->
    (forall ptr', alen ptr' = alen ptr -> (forall k, N <= k -> aget ptr' k = aget ptr k) ->
       (forall j, 0 <= j < N -> aget ptr' j = start id j lines) ->
       Q (ptr', start id N lines) m) ->
    wp (cumulate N ptr) L m Q.
  Proof.
    intros N ptr lines L m Q HN Hpos Hc HQ. unfold cumulate.
    apply wp_for1_acc with (I := fun k st m' => m' = m /\ alen (fst st) = alen ptr /\
      snd st = start id k lines /\
      (forall j, 0 <= j < k -> aget (fst st) j = start id j lines) /\
      (forall j, k <= j -> aget (fst st) j = aget ptr j)).
    - cbn [fst snd]. repeat split; auto; try lia. symmetry. apply start_0. exact Hpos.
    - intros k [p s] m' Hk (-> & Hl & Hs & Hd & Ho). cbn [fst snd] in *. wbind. apply aread_wp; [lia|].
      wbind. apply awrite_wp; [lia|]. apply wp_ret. cbn [fst snd].
      repeat split; auto.
      + cbn [snd]. rewrite Ho, Hc by lia. rewrite start_next. lia.
      + intros j Hj. destruct (Z.eq_dec j k) as [->|Hne].
        * rewrite aset_same. exact Hs.
        * rewrite aset_other by lia. apply Hd. lia.
      + intros j Hj. rewrite aset_other by lia. apply Ho. lia.
    - intros [p s] m' (-> & Hl & Hs & Hd & Ho). cbn [fst snd] in *. rewrite Z.max_r in * by lia.
      subst s. apply HQ; auto.
  Qed.

  (* the lines of the result hold the first items *)
  Definition placed (n : Z) (items done : list item) (st : arr Z * arr Z * arr T) : Prop :=
    let '(ptr, ix, v) := st in
    forall j, 0 <= j < n ->
      aget ptr j = start iline j items + cnt iline j done /\
      map (fun p => (aget ix p, aget v p)) (zr (start iline j items) (start iline j items + cnt iline j done)) =
      map ipair (filter (fun e => iline e =? j) done).

  Lemma place_wp : forall n items done rest j i e st L (m : Z -> T) (Q : arr Z * arr Z * arr T -> (Z -> T) -> Prop),
    let '(ptr, ix, v) := st in
    items = done ++ (j, i, e) :: rest ->
    (forall x, In x items -> 0 <= iline x < n) ->
    n < alen ptr -> Z.of_nat (length items) <= alen ix -> Z.of_nat (length items) <= alen v ->
    placed n items done st ->
    (forall ptr' ix' v', alen ptr' = alen ptr -> alen ix' = alen ix -> alen v' = alen v ->
       (forall k, n <= k -> aget ptr' k = aget ptr k) ->
       placed n items (done ++ [(j, i, e)]) (ptr', ix', v') -> Q (ptr', ix', v') m) ->
    wp (place j i e st) L m Q.
  Proof.
    intros n items done rest j i e [[ptr ix] v] L m Q Hit Hin Hp Hix Hv HI HQ.
    assert (Hj : 0 <= j < n).
    { apply (Hin (j, i, e)). rewrite Hit. apply in_app_iff. right. left. reflexivity. }
    destruct (HI j Hj) as [Hpj _].
    assert (Hcj : cnt iline j done + 1 <= cnt iline j items).
    { rewrite Hit. change ((j, i, e) :: rest) with ([(j, i, e)] ++ rest). rewrite !cnt_app, cnt_one.
      change (iline (j, i, e)) with j. rewrite Z.eqb_refl. pose proof (cnt_pos iline j rest). lia. }
    assert (Hend : start iline j items + cnt iline j items <= Z.of_nat (length items)).
    { rewrite <- start_next. rewrite <- (start_all iline n items) by (intros; apply Hin; auto).
      apply start_mono. lia. }
    assert (Hs0 : 0 <= start iline j items) by (unfold start; lia).
    pose proof (cnt_pos iline j done) as Hc0.
    unfold place. wbind. apply aread_wp; [lia|]. rewrite Hpj.
    wbind. apply awrite_wp; [lia|]. wbind. apply awrite_wp; [lia|].
    wbind. apply awrite_wp; [lia|]. apply wp_ret. apply HQ; auto.
    - intros k Hk. apply aset_other. lia.
    - intros j' Hj'. destruct (HI j' Hj') as [Hp' Hm']. rewrite cnt_app, cnt_one. change (iline (j, i, e)) with j.
      set (pos := start iline j items + cnt iline j done) in *.
      destruct (Z.eqb_spec j j') as [<-|Hne].
      + split; [rewrite aset_same; unfold pos; lia|].
        rewrite Z.add_assoc. fold pos. rewrite zr_snoc by (unfold pos; lia).
        rewrite map_app, filter_app, map_app. f_equal.
        * rewrite <- Hm'. apply map_ext_zr. intros x Hx. rewrite !aset_other by (fold pos in Hx; lia). reflexivity.
        * cbn [map filter]. change (iline (j, i, e)) with j. rewrite Z.eqb_refl. cbn [map]. rewrite !aset_same. reflexivity.
      + rewrite aset_other by lia. split; [lia|]. rewrite Z.add_0_r.
        rewrite filter_app. cbn [filter]. change (iline (j, i, e)) with j.
        destruct (Z.eqb_spec j j'); [contradiction|]. rewrite app_nil_r. rewrite <- Hm'.
        assert (Hc' : cnt iline j' done <= cnt iline j' items) by (rewrite Hit; apply cnt_le).
        apply map_ext_zr. intros x Hx.
        assert (x <> pos).
        { destruct (Z_lt_le_dec j j').
          - pose proof (start_mono iline (j + 1) j' items ltac:(lia)) as Hm. rewrite start_next in Hm. unfold pos. lia.
          - pose proof (start_mono iline (j' + 1) j items ltac:(lia)) as Hm. rewrite start_next in Hm. unfold pos. lia. }
        rewrite !aset_other by auto. reflexivity.
  Qed.

  Lemma restore_wp : forall n (ptr : arr Z) items L (m : Z -> T) (Q : arr Z * Z -> (Z -> T) -> Prop),
    0 <= n <= alen ptr ->
    (forall e : item, In e items -> 0 <= iline e) ->
    (forall j, 0 <= j < n -> aget ptr j = start iline j items + cnt iline j items) ->
    (forall ptr' s, alen ptr' = alen ptr -> (forall k, n <= k -> aget ptr' k = aget ptr k) ->
       (forall j, 0 <= j < n -> aget ptr' j = start iline j items) -> Q (ptr', s) m) ->
    wp (restore n ptr) L m Q.
  Proof.
    intros n ptr items L m Q Hn Hpos Hc HQ. unfold restore.
    apply wp_for1_acc with (I := fun k st m' => m' = m /\ alen (fst st) = alen ptr /\
      snd st = start iline k items /\
      (forall j, 0 <= j < k -> aget (fst st) j = start iline j items) /\
      (forall j, k <= j -> aget (fst st) j = aget ptr j)).
    - cbn [fst snd]. repeat split; auto; try lia. symmetry. apply start_0. exact Hpos.
    - intros k [p s] m' Hk (-> & Hl & Hs & Hd & Ho). cbn [fst snd] in *. wbind. apply aread_wp; [lia|].
      wbind. apply awrite_wp; [lia|]. apply wp_ret. cbn [fst snd].
      repeat split; auto.
      + cbn [snd]. rewrite Ho, Hc by lia. rewrite start_next. lia.
      + intros j Hj. destruct (Z.eq_dec j k) as [->|Hne].
        * rewrite aset_same. exact Hs.
        * rewrite aset_other by lia. apply Hd. lia.
      + intros j Hj. rewrite aset_other by lia. apply Ho. lia.
    - intros [p s] m' (-> & Hl & Hs & Hd & Ho). cbn [fst snd] in *. rewrite Z.max_r in * by lia.
      apply HQ; auto.
  Qed.
End Count.

(* a position lies in one of the segments *)
Lemma find_seg : forall (f : Z -> Z) n p, 0 <= n -> f 0 <= p < f n ->
  exists j, 0 <= j < n /\ f j <= p < f (j + 1).
Proof.
  intros f n p Hn. pattern n. apply natlike_ind; auto.
  - intros H. lia.
  - intros k Hk IH H. unfold Z.succ in *. destruct (Z_lt_le_dec p (f k)).
    + destruct IH as (j & Hj & Hp); [lia|]. exists j. split; [lia|exact Hp].
    + exists k. split; [lia|]. lia.
Qed.

Section Convert.
  Context {T : Type}.
  Notation item := (Z * Z * T)%type.

  (* the arrays hold the items grouped by line, in their order *)
  Definition grouped (n : Z) (items : list item) (ptr ix : arr Z) (v : arr T) : Prop :=
    (forall j, 0 <= j <= n -> aget ptr j = start iline j items) /\
    (forall j, 0 <= j < n ->
       map (fun p => (aget ix p, aget v p)) (zr (start iline j items) (start iline (j + 1) items)) =
       map ipair (filter (fun e => iline e =? j) items)).

  Definition in_lines (n w : Z) (items : list item) : Prop :=
    forall e, In e items -> 0 <= iline e < n /\ 0 <= snd (fst e) < w.

  Lemma grouped_index : forall n w items ptr ix v, 0 <= n -> in_lines n w items ->
    grouped n items ptr ix v ->
    forall p, 0 <= p < Z.of_nat (length items) -> 0 <= aget ix p < w.
  Proof.
    intros n w items ptr ix v Hn Hin [Hp Hm] p Hr.
    rewrite <- (start_all iline n items) in Hr by (intros e He; apply Hin; auto).
    destruct (find_seg (fun j => start iline j items) n p Hn) as (j & Hj & Hs).
    { rewrite start_0 by (intros e He; apply Hin; auto). lia. }
    assert (X : In (aget ix p, aget v p) (map ipair (filter (fun e => iline e =? j) items))).
    { rewrite <- Hm by auto. apply in_map_iff. exists p. split; [reflexivity|]. apply zr_in; auto. }
    apply in_map_iff in X as (e & E & He). apply filter_In in He as [He _].
    apply Hin in He as [_ He]. unfold ipair in E. inversion E. subst. exact He.
  Qed.

  Lemma grouped_perm : forall n items, (forall e, In e items -> 0 <= iline e < n) ->
    Permutation (flat_map (fun j => map (fun e : Z * T => (j, fst e, snd e))
                   (map ipair (filter (fun e : item => iline e =? j) items))) (zr 0 n)) items.
  Proof.
    intros n items H.
    etransitivity; [|apply (group_perm iline n items H)].
    erewrite flat_map_ext_zr; [reflexivity|]. intros j Hj. cbn beta.
    rewrite map_map. rewrite <- map_id. apply map_ext_in. intros [[a b] c] He.
    apply filter_In in He as [_ He]. unfold iline in He. cbn [fst] in He. apply Z.eqb_eq in He. subst a. reflexivity.
  Qed.

  Lemma cs_convert_wp : forall (line other : coo T -> Z) n kind (A B : sparse T) items L m
    (Q : sparse T -> (Z -> T) -> Prop),
    0 <= n -> 0 <= sp_nnz B <= alen (sp_ep B) ->
    items = map (fun k => let e := aget (sp_ep B) k in (line e, other e, cv e)) (zr 0 (sp_nnz B)) ->
    (forall e, In e items -> 0 <= iline e < n) ->
    alen (sp_ptr A) = n + 1 -> (forall j, 0 <= j <= n -> aget (sp_ptr A) j = 0) ->
    sp_nnz B <= alen (sp_ix A) -> sp_nnz B <= alen (sp_v A) ->
    (forall ptr ix v, alen ptr = alen (sp_ptr A) -> alen ix = alen (sp_ix A) -> alen v = alen (sp_v A) ->
       grouped n items ptr ix v ->
       Q (sp_with_counts (sp_with_arrays A v ptr ix) (sp_nnz B) n kind) m) ->
    wp (cs_convert line other n n kind A B) L m Q.
  Proof.
    intros line other n kind A B items L m Q Hn Hnz Hit Hin Hpl Hz Hix Hv HQ. unfold cs_convert.
    set (lines := map iline items).
    assert (Hlen : Z.of_nat (length items) = sp_nnz B).
    { rewrite Hit, map_length, zr_length. lia. }
    assert (Elem : forall k, 0 <= k < sp_nnz B -> 0 <= line (aget (sp_ep B) k) < n).
    { intros k Hk. apply (Hin (line (aget (sp_ep B) k), other (aget (sp_ep B) k), cv (aget (sp_ep B) k))).
      rewrite Hit. apply in_map_iff. exists k. split; [reflexivity|]. apply zr_in; lia. }
    assert (Sline : forall j, start id j lines = start iline j items).
    { intros j. unfold lines. rewrite <- start_map. reflexivity. }
    wbind. apply wp_for1_acc with (I := fun k ptr m' => m' = m /\ alen ptr = n + 1 /\
      aget ptr n = 0 /\
      forall j, 0 <= j < n -> aget ptr j = cnt id j (map (fun k => line (aget (sp_ep B) k)) (zr 0 k))).
    { repeat split; auto. { apply Hz; lia. } intros j Hj. rewrite Hz by lia. rewrite zr_nil by lia. reflexivity. }
    { intros k ptr m' Hk (-> & Hl & Hlast & Hc). wbind. apply aread_wp; [lia|].
      apply (count_step ptr n (map (fun k => line (aget (sp_ep B) k)) (zr 0 k))); auto; [lia|].
      intros ptr' Hl' Ho Hc'. repeat split; auto; try lia.
      - rewrite Ho by lia. exact Hlast.
      - intros j Hj. rewrite zr_snoc, map_app by lia. apply Hc'; auto. }
    intros ptr m' (-> & Hl & Hlast & Hc). rewrite Z.max_r in Hc by lia.
    assert (El : map (fun k => line (aget (sp_ep B) k)) (zr 0 (sp_nnz B)) = lines).
    { unfold lines. rewrite Hit, map_map. reflexivity. }
    rewrite El in Hc.
    assert (Lpos : forall j, In j lines -> 0 <= j).
    { intros j Hj. unfold lines in Hj. apply in_map_iff in Hj as (e & <- & He). apply Hin; auto. }
    wbind. apply (cumulate_wp (n + 1) ptr lines); auto; [lia| |].
    { intros j Hj. destruct (Z.eq_dec j n) as [->|Hne]; [|apply Hc; lia].
      rewrite Hlast. unfold cnt. unfold lines. rewrite filter_map_comm, map_length.
      replace (filter _ items) with (@nil item); [reflexivity|].
      symmetry. clear - Hin. induction items as [|e l IH]; [reflexivity|]. cbn [filter].
      pose proof (Hin e (or_introl eq_refl)). unfold id. destruct (Z.eqb_spec (iline e) n); [lia|].
      apply IH. intros; apply Hin; right; auto. }
    intros ptr1 Hl1 _ Hs1. cbn [fst].
    wbind. apply wp_for1_acc with (I := fun k st m' => m' = m /\
      alen (fst (fst st)) = n + 1 /\ alen (snd (fst st)) = alen (sp_ix A) /\ alen (snd st) = alen (sp_v A) /\
      aget (fst (fst st)) n = start iline n items /\
      placed n items (map (fun k => let e := aget (sp_ep B) k in (line e, other e, cv e)) (zr 0 k)) st).
    { cbn [fst snd]. repeat split; auto; try lia.
      - rewrite Hs1 by lia. apply Sline.
      - rewrite Hs1 by lia. rewrite zr_nil by lia. cbn [map]. rewrite cnt_nil, Sline. lia.
      - rewrite (zr_nil 0 0) by lia. cbn [map filter]. rewrite cnt_nil. rewrite zr_nil by lia. reflexivity. }
    { intros k [[ptr2 ix2] v2] m' Hk (-> & La & Lb & Lc & Ha & Hpl2). cbn [fst snd] in *.
      wbind. apply aread_wp; [lia|]. set (e := aget (sp_ep B) k) in *.
      pose proof (place_wp n items
        (map (fun k => let e := aget (sp_ep B) k in (line e, other e, cv e)) (zr 0 k))
        (map (fun k => let e := aget (sp_ep B) k in (line e, other e, cv e)) (zr (k + 1) (sp_nnz B)))
        (line e) (other e) (cv e) (ptr2, ix2, v2) L m) as P. cbn beta iota in P.
      apply P; clear P; auto; try lia.
      - rewrite Hit. rewrite (zr_app 0 k) by lia. rewrite map_app. f_equal.
        rewrite zr_cons by lia. reflexivity.
      - intros ptr3 ix3 v3 L1 L2 L3 Ho Hp3. cbn [fst snd]. repeat split; try lia.
        + rewrite Ho by lia. exact Ha.
        + destruct (Hp3 j H) as [E _]. rewrite E. rewrite zr_snoc, map_app by lia. reflexivity.
        + destruct (Hp3 j H) as [_ E]. rewrite zr_snoc, map_app by lia. exact E. }
    intros [[ptr2 ix2] v2] m' (-> & La & Lb & Lc & Ha & Hpl2). cbn [fst snd] in *.
    rewrite Z.max_r in Hpl2 by lia. rewrite <- Hit in Hpl2.
    wbind. apply (restore_wp n ptr2 items); auto; try lia.
    { intros e He. apply Hin in He. lia. }
    { intros j Hj. apply Hpl2; auto. }
    intros ptr3 s Hl3 Ho3 Hs3. apply wp_ret. cbn [fst]. apply HQ; auto; try lia.
    split.
    - intros j Hj. destruct (Z.eq_dec j n) as [->|Hne]; [|apply Hs3; lia]. rewrite Ho3 by lia. exact Ha.
    - intros j Hj. rewrite start_next. apply Hpl2; auto.
  Qed.

  (* the compressed source: its items in the order the loops visit them *)
  Definition flip_items (B : sparse T) (n : Z) : list item :=
    flat_map (fun k => map (fun e => (fst e, k, snd e)) (line_of B k)) (zr 0 n).

  Lemma line_split : forall (f : Z -> Z) E (g : Z -> E) n, 0 <= n ->
    (forall j, 0 <= j < n -> f j <= f (j + 1)) -> f 0 = 0 ->
    0 <= f n /\ flat_map (fun j => map g (zr (f j) (f (j + 1)))) (zr 0 n) = map g (zr 0 (f n)).
  Proof.
    intros f E g n Hn. pattern n. apply natlike_ind; auto.
    - intros _ H0. rewrite H0. split; [lia|]. rewrite !zr_nil by lia. reflexivity.
    - intros k Hk IH Hm H0. unfold Z.succ in *. destruct IH as [H1 H2]; auto. { intros; apply Hm; lia. }
      pose proof (Hm k ltac:(lia)). split; [lia|].
      rewrite zr_snoc by lia. rewrite flat_map_snoc, H2. rewrite <- map_app. f_equal.
      symmetry. apply zr_app. lia.
  Qed.

  Lemma cs_flip_wp : forall n nB kind (A B : sparse T) items L m (Q : sparse T -> (Z -> T) -> Prop),
    0 <= n -> 0 <= nB -> sp_nnz B <= alen (sp_ix B) -> sp_nnz B <= alen (sp_v B) ->
    alen (sp_ptr B) = nB + 1 -> aget (sp_ptr B) 0 = 0 -> aget (sp_ptr B) nB = sp_nnz B ->
    (forall j, 0 <= j < nB -> aget (sp_ptr B) j <= aget (sp_ptr B) (j + 1)) ->
    items = flip_items B nB ->
    (forall p, 0 <= p < sp_nnz B -> 0 <= aget (sp_ix B) p < n) ->
    alen (sp_ptr A) = n + 1 ->
    sp_nnz B <= alen (sp_ix A) -> sp_nnz B <= alen (sp_v A) ->
    (forall ptr ix v, alen ptr = alen (sp_ptr A) -> alen ix = alen (sp_ix A) -> alen v = alen (sp_v A) ->
       grouped n items ptr ix v ->
       Q (sp_with_counts (sp_with_arrays A v ptr ix) (sp_nnz B) n kind) m) ->
    wp (cs_flip n nB kind A B) L m Q.
  Proof.
    intros n nB kind A B items L m Q Hn HnB Hbi Hbv Hbp Hb0 Hbn Hmono Hit Hin Hpl Hix Hv HQ. unfold cs_flip.
    set (f := aget (sp_ptr B)) in *.
    destruct (line_split f _ (fun p => (aget (sp_ix B) p, aget (sp_v B) p)) nB HnB Hmono Hb0) as [Hnz Hall].
    set (lines := map iline items).
    assert (El : lines = map (fun p => aget (sp_ix B) p) (zr 0 (sp_nnz B))).
    { unfold lines. rewrite Hit. unfold flip_items, line_of. fold f.
      rewrite <- Hbn. rewrite <- (map_map (fun p => (aget (sp_ix B) p, aget (sp_v B) p)) fst). rewrite <- Hall.
      clear. induction (zr 0 nB) as [|k l IH]; [reflexivity|]. cbn [flat_map]. rewrite !map_app, IH. f_equal.
      rewrite !map_map. reflexivity. }
    assert (Hlen : Z.of_nat (length items) = sp_nnz B).
    { rewrite <- (map_length iline). fold lines. rewrite El, map_length, zr_length. lia. }
    assert (HinL : forall j, In j lines -> 0 <= j < n).
    { intros j Hj. rewrite El in Hj. apply in_map_iff in Hj as (p & <- & Hp). apply Hin. apply zr_in in Hp. lia. }
    assert (HinI : forall e, In e items -> 0 <= iline e < n).
    { intros e He. apply HinL. unfold lines. apply in_map; auto. }
    assert (Sline : forall j, start id j lines = start iline j items).
    { intros j. unfold lines. rewrite <- start_map. reflexivity. }
    (* ptr cleared *)
    wbind. apply wp_for1_acc with (I := fun k ptr m' => m' = m /\ alen ptr = n + 1 /\
      forall j, 0 <= j < k -> aget ptr j = 0).
    { repeat split; auto; lia. }
    { intros k ptr m' Hk (-> & Hl & Hz). apply awrite_wp; [lia|]. repeat split; auto.
      intros j Hj. destruct (Z.eq_dec j k) as [->|Hne]; [apply aset_same|]. rewrite aset_other by auto. apply Hz; lia. }
    intros ptr0 m' (-> & Hl0 & Hz0). rewrite Z.max_r in Hz0 by lia.
    (* counts *)
    wbind. apply wp_for1_acc with (I := fun k ptr m' => m' = m /\ alen ptr = n + 1 /\
      forall j, 0 <= j < n -> aget ptr j = cnt id j (map (fun p => aget (sp_ix B) p) (zr 0 k))).
    { repeat split; auto. }
    { intros k ptr m' Hk (-> & Hl & Hc). wbind. apply aread_wp; [lia|].
      apply (count_step ptr n (map (fun p => aget (sp_ix B) p) (zr 0 k))); auto; [lia|].
      intros ptr' Hl' Ho Hc'. repeat split; auto; try lia.
      intros j Hj. rewrite zr_snoc, map_app by lia. apply Hc'; auto. }
    intros ptr m' (-> & Hl & Hc). rewrite Z.max_r in Hc by lia. rewrite <- El in Hc.
    wbind. apply (cumulate_wp n ptr lines); auto; [lia| |].
    { intros j Hj. apply HinL in Hj. lia. }
    intros ptr1 Hl1 _ Hs1. cbn [fst snd].
    wbind. apply awrite_wp; [lia|].
    wbind. apply wp_for1_acc with (I := fun k st m' => m' = m /\
      alen (fst (fst st)) = n + 1 /\ alen (snd (fst st)) = alen (sp_ix A) /\ alen (snd st) = alen (sp_v A) /\
      placed n items (flip_items B k) st).
    { cbn [fst snd]. repeat split; auto; try (rewrite ?aset_len; lia).
      - rewrite aset_other by lia. rewrite Hs1 by lia. unfold flip_items. rewrite zr_nil by lia. cbn [flat_map].
        rewrite cnt_nil, Sline. lia.
      - unfold flip_items. rewrite (zr_nil 0 0) by lia. cbn [flat_map filter map]. rewrite cnt_nil. rewrite zr_nil by lia. reflexivity. }
    { intros k st m' Hk (-> & La & Lb & Lc & Hp).
      wbind. apply aread_wp; [lia|]. fold f. wbind. apply aread_wp; [lia|]. fold f.
      assert (M0 : forall a b, 0 <= a <= b -> b <= nB -> f a <= f b).
      { intros a b Hab. pattern b. apply Zlt_lower_bound_ind with (z := a); [|lia].
        intros x IH Hx Hb. destruct (Z.eq_dec x a) as [->|]; [lia|].
        pose proof (Hmono (x - 1) ltac:(lia)) as H1. replace (x - 1 + 1) with x in H1 by lia.
        specialize (IH (x - 1) ltac:(lia) ltac:(lia)). lia. }
      pose proof (M0 0 k ltac:(lia) ltac:(lia)) as M1. pose proof (M0 (k + 1) nB ltac:(lia) ltac:(lia)) as M2.
      pose proof (Hmono k ltac:(lia)) as M3.
      apply wp_for1_acc with (I := fun p st m' => m' = m /\
        alen (fst (fst st)) = n + 1 /\ alen (snd (fst st)) = alen (sp_ix A) /\ alen (snd st) = alen (sp_v A) /\
        placed n items (flip_items B k ++ map (fun p => (aget (sp_ix B) p, k, aget (sp_v B) p)) (zr (f k) p)) st).
      - repeat split; auto. rewrite (zr_nil (f k) (f k)) by lia. cbn [map]. rewrite app_nil_r. exact Hp.
      - clear st La Lb Lc Hp. intros p [[ptr2 ix2] v2] m' Hpr (-> & La & Lb & Lc & Hp). cbn [fst snd] in *.
        wbind. apply aread_wp; [lia|]. wbind. apply aread_wp; [lia|].
        pose proof (place_wp n items
          (flip_items B k ++ map (fun p => (aget (sp_ix B) p, k, aget (sp_v B) p)) (zr (f k) p))
          (map (fun p => (aget (sp_ix B) p, k, aget (sp_v B) p)) (zr (p + 1) (f (k + 1))) ++
           flat_map (fun k => map (fun e => (fst e, k, snd e)) (line_of B k)) (zr (k + 1) nB))
          (aget (sp_ix B) p) k (aget (sp_v B) p) (ptr2, ix2, v2) L m) as P. cbn beta iota in P.
        apply P; clear P; auto; try lia.
        + rewrite Hit. unfold flip_items. rewrite (zr_app 0 k nB) by lia. rewrite flat_map_app.
          rewrite <- app_assoc. f_equal. rewrite (zr_cons k nB) by lia. cbn [flat_map].
          unfold line_of at 1. fold f. rewrite (zr_app (f k) p (f (k + 1))) by lia.
          rewrite (zr_cons p (f (k + 1))) by lia. rewrite !map_app, !map_map. cbn [map fst snd].
          rewrite <- !app_assoc. f_equal.
        + intros ptr3 ix3 v3 L1 L2 L3 Ho Hp3. cbn [fst snd]. split; [auto|]. split; [lia|]. split; [lia|]. split; [lia|].
          rewrite zr_snoc, map_app by lia. rewrite app_assoc. exact Hp3.
      - intros st' m' (-> & La' & Lb' & Lc' & Hp'). rewrite Z.max_r in Hp' by lia.
        repeat split; auto. unfold flip_items. rewrite zr_snoc by lia. rewrite flat_map_snoc.
        unfold line_of at 2. fold f. rewrite map_map. exact Hp'. }
    intros [[ptr2 ix2] v2] m' (-> & La & Lb & Lc & Hpl2). cbn [fst snd] in *.
    rewrite Z.max_r in Hpl2 by lia. rewrite <- Hit in Hpl2.
    wbind. apply (restore_wp n ptr2 items); auto; try lia.
    { intros e He. apply HinI in He. lia. }
    { intros j Hj. apply Hpl2; auto. }
    intros ptr3 s Hl3 Ho3 Hs3. cbn [fst]. wbind. apply awrite_wp; [lia|]. apply wp_ret. apply HQ; auto; try (rewrite ?aset_len; lia).
    split.
    - intros j Hj. destruct (Z.eq_dec j n) as [->|Hne].
      + rewrite aset_same. rewrite (start_all iline n items); [lia|]. intros e He. apply HinI in He. lia.
      + rewrite aset_other by auto. apply Hs3; lia.
    - intros j Hj. rewrite start_next. apply Hpl2; auto.
  Qed.
End Convert.
