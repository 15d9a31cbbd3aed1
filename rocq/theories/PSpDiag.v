(* PSpDiag.v: the operations on diagonals of compressed matrices. *)
From Coq Require Import ZArith Lia List Bool Ring.
From Verif Require Import Mem MView MNum MFlags MSparse MSpVec SpecView SpecNum SpecSparse SpecSpVec Hoare PSum PFrame PSparse PSpconv PSpVec PSpTrm.
Import ListNotations.
Local Open Scope Z_scope.
Local Open Scope prog_scope.
Ltac lia := Lia.lia.

Section Diag.
  Context {T : Type} (K : num T).
  Hypothesis HR : is_ring K.
  Let HR' : ring_theory (zero K) (one K) (add K) (mul K) (sub K) (opp K) eq := HR.
  Add Ring KringD : HR'.
  Local Notation "x +' y" := (add K x y) (at level 50, left associativity).
  Local Notation "x *' y" := (mul K x y) (at level 40, left associativity).
  Local Notation psum := (psum K).
  Local Notation lval := (lval K).

  Variables (L : Z -> bool) (A : sparse T) (n w : Z).
  Hypothesis HA : lines A n w.
  Local Notation P := (P A).
  Local Notation ix := (aget (sp_ix A)).

  Lemma dmono : forall i j, 0 <= i -> i <= j -> j <= n -> P i <= P j.
  Proof.
    intros i j Hi Hij Hj. replace j with (i + Z.of_nat (Z.to_nat (j - i))) in * by lia. induction (Z.to_nat (j - i)) as [|k IH].
    - replace (i + Z.of_nat 0) with i by lia. lia.
    - specialize (IH ltac:(lia) ltac:(lia)). pose proof (ln_mono _ _ _ HA (i + Z.of_nat k) ltac:(lia)).
      replace (i + Z.of_nat (S k)) with (i + Z.of_nat k + 1) by lia. lia.
  Qed.
  Lemma dsame : forall i j p, 0 <= i < n -> 0 <= j < n -> P i <= p < P (i + 1) -> P j <= p < P (j + 1) -> i = j.
  Proof.
    intros i j p Hi Hj Hp Hq. destruct (Z.lt_trichotomy i j) as [H|[H|H]]; [|auto|].
    - pose proof (dmono (i + 1) j ltac:(lia) ltac:(lia) ltac:(lia)). lia.
    - pose proof (dmono (j + 1) i ltac:(lia) ltac:(lia) ltac:(lia)). lia.
  Qed.
  Lemma drange : forall j, 0 <= j < n -> 0 <= P j /\ P j <= P (j + 1) /\ P (j + 1) <= alen (sp_ix A).
  Proof.
    intros j Hj. pose proof (ln_lo _ _ _ HA j ltac:(lia)). pose proof (ln_lo _ _ _ HA (j + 1) ltac:(lia)). pose proof (ln_mono _ _ _ HA j Hj). lia.
  Qed.
  Lemma dpt : forall j (m : Z -> T) (Q : Z -> (Z -> T) -> Prop), 0 <= j <= n -> Q (P j) m -> wp (pt A j) L m Q.
  Proof. intros j m Q Hj HQ. apply aread_wp; [rewrite (ln_ptr _ _ _ HA); lia|exact HQ]. Qed.

  (* ---------------------------------------------------------------- scaling *)

  Lemma diag_lines_wp : forall byline alpha x m, reg L x (if byline : bool then n else w) ->
    wp (diag_lines K n byline alpha A x) L m (fun A' m' => m' = m /\
      exists v, A' = sp_with_v A v /\ alen v = alen (sp_v A) /\
        forall l p, 0 <= l < n -> P l <= p < P (l + 1) -> aget v p = aget (sp_v A) p *' (alpha *' m (x + (if byline then l else ix p)))).
  Proof.
    intros byline alpha x m HX. unfold diag_lines. wbind. pose proof (ln_n _ _ _ HA) as Hn.
    apply wp_for1_acc with (I := fun i v m' => m' = m /\ alen v = alen (sp_v A) /\
      forall l p, 0 <= l < n -> P l <= p < P (l + 1) -> aget v p = if l <? i then aget (sp_v A) p *' (alpha *' m (x + (if byline then l else ix p))) else aget (sp_v A) p).
    - split; [auto|]. split; [auto|]. intros l p Hl Hp. replace (l <? 0) with false by lia. reflexivity.
    - intros i v m1 Hi (-> & I1 & I2). pose proof (drange i Hi) as B. wbind. apply dpt; [lia|]. wbind. apply dpt; [lia|].
      apply wp_for1_acc with (I := fun q v' m' => m' = m /\ alen v' = alen (sp_v A) /\
        (forall p, P i <= p < P (i + 1) -> aget v' p = if p <? q then aget (sp_v A) p *' (alpha *' m (x + (if byline then i else ix p))) else aget (sp_v A) p) /\
        (forall l p, 0 <= l < n -> l <> i -> P l <= p < P (l + 1) -> aget v' p = aget v p)).
      + split; [auto|]. split; [auto|]. split; [|auto]. intros p Hp. replace (p <? P i) with false by lia. rewrite (I2 i p Hi Hp). rewrite Z.ltb_irrefl. reflexivity.
      + intros q v' m2 Hq (-> & J1 & J2 & J3). wbind.
        apply wp_conseq with (P := fun t m' => t = (if byline then i else ix q) /\ m' = m).
        { destruct byline; [apply wp_ret; auto|]. apply aread_wp; [lia|auto]. }
        intros t m3 (-> & ->). cbn beta. wbind. eapply rd_wp; [exact HX| |].
        { destruct byline; [lia|]. apply (ln_ix _ _ _ HA i q Hi Hq). }
        wbind. apply aread_wp; [rewrite J1, (ln_v _ _ _ HA); lia|]. apply awrite_wp; [rewrite J1, (ln_v _ _ _ HA); lia|].
        split; [auto|]. split; [exact J1|]. split.
        * intros p Hp. destruct (Z.eq_dec p q) as [->|Hne].
          -- rewrite aset_same. rewrite (J2 q Hp). rewrite Z.ltb_irrefl. replace (q <? q + 1) with true by lia. reflexivity.
          -- rewrite aset_other by auto. rewrite (J2 p Hp). destruct (Z.ltb_spec p q); destruct (Z.ltb_spec p (q + 1)); try lia; reflexivity.
        * intros l p Hl Hli Hp. rewrite aset_other; [apply (J3 l); auto|]. intros ->. apply Hli. apply (dsame l i q); auto.
      + intros v' m2. rewrite Z.max_r by lia. intros (-> & J1 & J2 & J3). split; [auto|]. split; [auto|].
        intros l p Hl Hp. destruct (Z.eq_dec l i) as [->|Hne].
        * rewrite (J2 p Hp). replace (p <? P (i + 1)) with true by lia. replace (i <? i + 1) with true by lia. reflexivity.
        * rewrite (J3 l p Hl Hne Hp), (I2 l p Hl Hp). destruct (Z.ltb_spec l i); destruct (Z.ltb_spec l (i + 1)); try lia; reflexivity.
    - intros v m1. rewrite Z.max_r by lia. intros (-> & I1 & I2). apply wp_ret. split; [auto|]. exists v. split; [auto|]. split; [auto|].
      intros l p Hl Hp. rewrite (I2 l p Hl Hp). replace (l <? n) with true by lia. reflexivity.
  Qed.

  (* ---------------------------------------------------------------- searches *)

  (* the first position of a line with an index of at least k *)
  Definition first_from (j k g : Z) : Prop := P j <= g < P (j + 1) /\ k <= ix g /\ forall p, P j <= p < g -> ix p < k.
  Lemma first_ex : forall j k p, 0 <= j < n -> P j <= p < P (j + 1) -> k <= ix p -> exists g, first_from j k g.
  Proof.
    intros j k p Hj Hp Hk. unfold first_from.
    assert (X : forall d : nat, P j + Z.of_nat d <= P (j + 1) -> (forall q, P j <= q < P j + Z.of_nat d -> ix q < k) \/ exists g, P j <= g < P (j + 1) /\ k <= ix g /\ forall p, P j <= p < g -> ix p < k).
    { induction d as [|d IH]; intro Hd; [left; intros; lia|]. destruct (IH ltac:(lia)) as [H|H]; [|auto].
      destruct (Z_le_dec k (ix (P j + Z.of_nat d))).
      - right. exists (P j + Z.of_nat d). split; [lia|]. auto.
      - left. intros q Hq. destruct (Z.eq_dec q (P j + Z.of_nat d)) as [->|]; [lia|]. apply H. lia. }
    destruct (X (Z.to_nat (P (j + 1) - P j)) ltac:(lia)) as [H|H]; [|exact H]. specialize (H p ltac:(lia)). lia.
  Qed.

  Lemma diag_pos_wp : forall j g m (Q : Z -> (Z -> T) -> Prop), 0 <= j < n -> first_from j j g -> Q g m -> wp (diag_pos A j) L m Q.
  Proof.
    intros j g m Q Hj (G1 & G2 & G3) HQ. pose proof (drange j Hj) as B. unfold diag_pos. wbind. apply dpt; [lia|]. wbind. apply dpt; [lia|].
    apply wp_rounds with (I := fun t k m' => k = P j + t /\ m' = m) (N := g - P j).
    - unfold rounds. lia.
    - split; [lia|auto].
    - intros t k m' Ht (-> & ->). wbind. apply aread_wp; [lia|]. apply wp_ret. split; [|auto].
      apply andb_true_intro. split; apply Z.ltb_lt; [apply G3|]; lia.
    - intros t k m' Ht (-> & ->). apply wp_ret. split; [lia|auto].
    - intros k m' (-> & ->). wbind. apply aread_wp; [lia|]. apply wp_ret. split; [|auto].
      replace (P j + (g - P j)) with g by lia. replace (ix g <? j) with false by lia. reflexivity.
    - intros k m' (-> & ->). replace (P j + (g - P j)) with g by lia. exact HQ.
  Qed.

  Lemma nz_wp : forall j k g m (Q : Z -> (Z -> T) -> Prop), 0 <= j < n -> first_from j k g ->
    Q (if ix g =? k then g else -1) m -> wp (armassp_nz A j k) L m Q.
  Proof.
    intros j k g m Q Hj (G1 & G2 & G3) HQ. pose proof (drange j Hj) as B. unfold armassp_nz. wbind. apply dpt; [lia|]. wbind. apply dpt; [lia|]. wbind.
    apply wp_rounds with (I := fun t st m' => m' = m /\ st = (if (ix g =? k) && (t =? g - P j + 1) then (g, Some g) else (P j + t, None)))
      (N := g - P j + (if ix g =? k then 1 else 0)).
    - unfold rounds. destruct (ix g =? k); lia.
    - split; [auto|]. replace (0 =? g - P j + 1) with false by lia. rewrite andb_false_r, Z.add_0_r. reflexivity.
    - intros t st m' Ht (-> & ->). assert (Et : (ix g =? k) && (t =? g - P j + 1) = false) by (destruct (ix g =? k); cbn; lia). rewrite Et. cbn [fst snd].
      wbind. apply aread_wp; [destruct (ix g =? k); lia|]. apply wp_ret. split; [|auto]. apply andb_true_intro. split.
      + apply Z.leb_le. destruct (Z.eq_dec (P j + t) g) as [E|Hne].
        * rewrite E. destruct (Z.eqb_spec (ix g) k); lia.
        * specialize (G3 (P j + t) ltac:(destruct (ix g =? k); lia)). lia.
      + apply Z.ltb_lt. destruct (ix g =? k); lia.
    - intros t st m' Ht (-> & ->). assert (Et : (ix g =? k) && (t =? g - P j + 1) = false) by (destruct (ix g =? k); cbn; lia). rewrite Et. cbn [fst snd].
      wbind. apply aread_wp; [destruct (ix g =? k); lia|]. destruct (Z.eq_dec (P j + t) g) as [E|Hne].
      + rewrite E. destruct (Z.eqb_spec (ix g) k) as [Ek|Ek]; [|lia]. apply wp_ret. split; [auto|].
        replace (t + 1 =? g - P j + 1) with true by lia. reflexivity.
      + pose proof (G3 (P j + t) ltac:(destruct (ix g =? k); lia)). replace (ix (P j + t) =? k) with false by lia. apply wp_ret. split; [auto|].
        replace (t + 1 =? g - P j + 1) with false by lia. rewrite andb_false_r. f_equal. lia.
    - intros st m' (-> & ->). destruct (Z.eqb_spec (ix g) k) as [Ek|Ek].
      + rewrite Z.eqb_refl. cbn. apply wp_ret. auto.
      + cbn [andb fst snd]. wbind. apply aread_wp; [lia|]. apply wp_ret. split; [|auto]. replace (P j + (g - P j + 0)) with g by lia.
        replace (ix g <=? k) with false by lia. reflexivity.
    - intros st m' (-> & ->). destruct (Z.eqb_spec (ix g) k) as [Ek|Ek].
      + rewrite Z.eqb_refl. cbn. apply wp_ret. exact HQ.
      + cbn. apply wp_ret. exact HQ.
  Qed.

  (* ---------------------------------------------------------------- adding to the diagonal *)

  Lemma add_lines_wp : forall mu m, (forall j, 0 <= j < n -> exists g, first_from j j g) ->
    (forall j p q, 0 <= j < n -> P j <= p -> p < q -> q < P (j + 1) -> ix p < ix q) ->
    wp (for_acc 0 n 1 (fun i v => p <- diag_pos A i ;; t <- at_ A p ;; if t =? i then (e <- aread v p ;; awrite v p (e +' mu)) else ret v) (sp_v A)) L m
      (fun v m' => m' = m /\ alen v = alen (sp_v A) /\
        forall l p, 0 <= l < n -> P l <= p < P (l + 1) -> aget v p = if ix p =? l then aget (sp_v A) p +' mu else aget (sp_v A) p).
  Proof.
    intros mu m HG HS. pose proof (ln_n _ _ _ HA) as Hn.
    apply wp_for1_acc with (I := fun i v m' => m' = m /\ alen v = alen (sp_v A) /\
      forall l p, 0 <= l < n -> P l <= p < P (l + 1) -> aget v p = if (l <? i) && (ix p =? l) then aget (sp_v A) p +' mu else aget (sp_v A) p).
    - split; [auto|]. split; [auto|]. intros l p Hl Hp. replace (l <? 0) with false by lia. reflexivity.
    - intros i v m1 Hi (-> & I1 & I2). destruct (HG i Hi) as (g & G). pose proof G as (G1 & G2 & G3). pose proof (drange i Hi) as B.
      wbind. apply (diag_pos_wp i g); auto. wbind. apply aread_wp; [lia|].
      assert (Hup : forall l (p : Z), 0 <= l < n -> l <> i -> (l <? i + 1) = (l <? i)) by (intros l _ _ Hne; destruct (Z.ltb_spec l i); destruct (Z.ltb_spec l (i + 1)); lia).
      destruct (Z.eqb_spec (ix g) i) as [E|E].
      + wbind. apply aread_wp; [rewrite I1, (ln_v _ _ _ HA); lia|]. apply awrite_wp; [rewrite I1, (ln_v _ _ _ HA); lia|].
        split; [auto|]. split; [exact I1|]. intros l p Hl Hp. destruct (Z.eq_dec l i) as [->|Hne].
        * replace (i <? i + 1) with true by lia. destruct (Z.eq_dec p g) as [->|Hpg].
          -- rewrite aset_same. rewrite (I2 i g) by auto. rewrite Z.ltb_irrefl, E, Z.eqb_refl. reflexivity.
          -- rewrite aset_other by auto. rewrite (I2 i p) by auto. rewrite Z.ltb_irrefl. cbn [andb].
             replace (ix p =? i) with false; [reflexivity|]. symmetry. apply Z.eqb_neq. destruct (Z_lt_dec p g).
             ++ pose proof (HS i p g Hi ltac:(lia) ltac:(lia) ltac:(lia)). lia.
             ++ pose proof (HS i g p Hi ltac:(lia) ltac:(lia) ltac:(lia)). lia.
        * rewrite aset_other by (intros ->; apply Hne; apply (dsame l i g); auto). rewrite (I2 l p Hl Hp), (Hup l p Hl Hne). reflexivity.
      + apply wp_ret. split; [auto|]. split; [exact I1|]. intros l p Hl Hp. rewrite (I2 l p Hl Hp). destruct (Z.eq_dec l i) as [->|Hne]; [|rewrite (Hup l p Hl Hne); reflexivity].
        rewrite Z.ltb_irrefl. replace (ix p =? i) with false; [rewrite !andb_false_r; reflexivity|]. symmetry. apply Z.eqb_neq. destruct (Z_lt_dec p g).
        * specialize (G3 p ltac:(lia)). lia.
        * destruct (Z.eq_dec p g) as [->|]; [auto|]. pose proof (HS i g p Hi ltac:(lia) ltac:(lia) ltac:(lia)). lia.
    - intros v m1. rewrite Z.max_r by lia. intros (-> & I1 & I2). split; [auto|]. split; [auto|]. intros l p Hl Hp. rewrite (I2 l p Hl Hp). replace (l <? n) with true by lia. reflexivity.
  Qed.

  (* ---------------------------------------------------------------- line_has *)

  Definition in_line (j i : Z) : Prop := exists p, P j <= p < P (j + 1) /\ ix p = i.
  Lemma line_has_wp : forall j i m (Q : bool -> (Z -> T) -> Prop), 0 <= j < n -> (forall b : bool, (b = true <-> in_line j i) -> Q b m) ->
    wp (line_has A j i) L m Q.
  Proof.
    intros j i m Q Hj HQ. pose proof (drange j Hj) as B. unfold line_has. wbind. apply dpt; [lia|]. wbind. apply dpt; [lia|].
    apply wp_for1_acc with (I := fun q b m' => m' = m /\ (b = true <-> exists p, P j <= p < q /\ ix p = i)).
    - split; [auto|]. split; [discriminate|]. intros (p & Hp & _). lia.
    - intros q b m1 Hq (-> & I). destruct b.
      + apply wp_ret. split; [auto|]. split; [|auto]. intros _. destruct (proj1 I eq_refl) as (p & Hp & E). exists p. split; [lia|auto].
      + wbind. apply aread_wp; [lia|]. apply wp_ret. split; [auto|]. split.
        * intro E. exists q. split; [lia|]. lia.
        * intros (p & Hp & E). destruct (Z.eq_dec p q) as [->|Hne]; [lia|]. exfalso. assert (false = true) by (apply I; exists p; split; [lia|auto]). discriminate.
    - intros b m1. rewrite Z.max_r by lia. intros (-> & I). apply HQ. exact I.
  Qed.

  (* counting down the lines that hold the index *)
  Lemma count_wp : forall start last (f : Z -> Z) m (Q : Z -> (Z -> T) -> Prop), 0 <= start -> start <= last -> last <= n ->
    (forall nc, (nc = 0 <-> forall j, start <= j < last -> in_line j (f j)) -> Q nc m) ->
    wp (for_acc start last 1 (fun j nc => b <- line_has A j (f j) ;; ret (if b : bool then nc - 1 else nc)) (last - start)) L m Q.
  Proof.
    intros start last f m Q Hs Hl Hn HQ.
    apply wp_for1_acc with (I := fun j nc m' => m' = m /\ last - j <= nc /\ (nc = last - j <-> forall k, start <= k < j -> in_line k (f k))).
    - split; [auto|]. split; [lia|]. split; [intros _ k Hk; lia|reflexivity].
    - intros j nc m1 Hj (-> & I1 & I2). wbind. apply line_has_wp; [lia|]. intros b Hb. apply wp_ret. split; [auto|]. destruct b.
      + split; [lia|]. split.
        * intros E k Hk. destruct (Z.eq_dec k j) as [->|]; [apply Hb; reflexivity|]. apply I2; lia.
        * intro H. assert (nc = last - j) by (apply I2; intros k Hk; apply H; lia). lia.
      + split; [lia|]. split; [lia|]. intro H. specialize (H j ltac:(lia)). apply Hb in H. discriminate.
    - intros nc m1. rewrite Z.max_r by lia. intros (-> & I1 & I2). apply HQ. rewrite <- I2. lia.
  Qed.
End Diag.
