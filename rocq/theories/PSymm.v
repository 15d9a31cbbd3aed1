(* PSymm.v: product of a symmetric matrix and a matrix. *)
From Coq Require Import ZArith Lia Ring Bool ZifyBool.
From Verif Require Import Mem MView SpecView PView PSub Hoare MFlags MBase MCopy PUpd PCopy
  MNum SpecNum MBlas1 PSum PBlas1 MElem PElem SpecPivot MPivot PPivot MSort PSort MBlas2 PMvec PBlas2
  PFrame SpecTrm MTrm PTrm MGemm PGemm PMatcpy PMult MTrsm PTrsm MSym PSym MSymm.
Local Open Scope Z_scope.
Local Open Scope prog_scope.
(* keep the facts about integers only *)
Ltac zonly := repeat match goal with H : ?P |- _ => match P with
  | Z => fail 1 | (_ <= _)%Z => fail 1 | (_ < _)%Z => fail 1 | @eq Z _ _ => fail 1 | _ /\ _ => fail 1 | _ \/ _ => fail 1 | ~ _ => fail 1
  | (_ <? _) = _ => fail 1 | (_ <=? _) = _ => fail 1 | (_ =? _) = _ => fail 1 | view => fail 1 | cache => fail 1
  | _ => clear H end end.
Ltac lia := zonly; zlia.

(* two nested loops over blocks, the inner one restarting for every outer block *)
Section Loops.
  Context {T : Type}.
  Variables (L : Z -> bool) (N1 b1 N2 b2 : Z) (body : Z -> Z -> Z -> Z -> M T unit)
    (E : (Z -> T) -> Z -> Z -> T) (R : Z -> Z -> T) (O : (Z -> T) -> Prop) (m0 : Z -> T).
  Hypotheses (H1 : 0 < b1) (H2 : 0 < b2) (HN1 : 0 <= N1) (HN2 : 0 <= N2) (O0 : O m0)
    (HB : forall i ni j nj m, 0 <= i -> 0 < ni <= b1 -> i + ni <= N1 -> 0 <= j -> 0 < nj <= b2 -> j + nj <= N2 -> O m ->
       (forall x y, i <= x < i + ni -> j <= y < j + nj -> E m x y = E m0 x y) ->
       wp (body i ni j nj) L m (fun _ m' => O m' /\
         (forall x y, i <= x < i + ni -> j <= y < j + nj -> E m' x y = R x y) /\
         (forall x y, 0 <= x < N1 -> 0 <= y < N2 -> ~ (i <= x < i + ni /\ j <= y < j + nj) -> E m' x y = E m x y))).

  Lemma loops_wp : forall (Q : unit -> (Z -> T) -> Prop),
    (forall m', O m' -> (forall x y, 0 <= x < N1 -> 0 <= y < N2 -> E m' x y = R x y) -> Q tt m') ->
    wp (for_step 0 N1 b1 (fun i => let ni := if N1 - i <? b1 then N1 - i else b1 in
          for_step 0 N2 b2 (fun j => let nj := if N2 - j <? b2 then N2 - j else b2 in body i ni j nj))) L m0 Q.
  Proof.
    intros Q HQ.
    apply wp_for_step with (I := fun i m => O m /\
      forall x y, 0 <= x < N1 -> 0 <= y < N2 -> E m x y = if x <? i then R x y else E m0 x y); auto.
    { split; auto. intros x y Hx Hy. replace (x <? 0) with false by lia. reflexivity. }
    2:{ intros m (Om & V). apply HQ; auto. intros x y Hx Hy. rewrite V by auto. replace (x <? N1) with true by lia. reflexivity. }
    intros i m1 Hi (O1 & V1). cbv zeta.
    set (ni := if N1 - i <? b1 then N1 - i else b1).
    assert (Hni : 0 < ni <= b1 /\ i + ni = Z.min (i + b1) N1) by (unfold ni; destruct (N1 - i <? b1) eqn:Eq; lia).
    destruct Hni as (Hni & Eni). rewrite <- Eni. assert (Hle : i + ni <= N1) by lia. clearbody ni. clear Eni.
    apply wp_for_step with (I := fun j m => O m /\
      forall x y, 0 <= x < N1 -> 0 <= y < N2 -> E m x y =
        if (x <? i) || ((x <? i + ni) && (y <? j)) then R x y else E m0 x y); auto.
    { split; auto. intros x y Hx Hy. rewrite V1 by auto. replace (y <? 0) with false by lia. rewrite andb_false_r, orb_false_r. reflexivity. }
    2:{ intros m (Om & V). split; auto. intros x y Hx Hy. rewrite V by auto. replace (y <? N2) with true by lia.
        rewrite andb_true_r. destruct (x <? i) eqn:E1, (x <? i + ni) eqn:E2; auto; lia. }
    intros j m2 Hj (O2 & V2).
    set (nj := if N2 - j <? b2 then N2 - j else b2).
    assert (Hnj : 0 < nj <= b2 /\ j + nj = Z.min (j + b2) N2) by (unfold nj; destruct (N2 - j <? b2) eqn:Eq; lia).
    destruct Hnj as (Hnj & Enj). rewrite <- Enj. assert (Hle2 : j + nj <= N2) by lia. clearbody nj. clear Enj.
    eapply wp_conseq; [apply HB; auto; try lia|].
    - intros x y Hx Hy. rewrite V2 by lia. replace (x <? i) with false by lia. replace (y <? j) with false by lia.
      rewrite andb_false_r. reflexivity.
    - intros _ m3 (O3 & V3 & F3). split; auto. intros x y Hx Hy.
      destruct (Z_le_dec i x), (Z_lt_dec x (i + ni)), (Z_le_dec j y), (Z_lt_dec y (j + nj));
        try (rewrite V3 by lia; replace (x <? i) with false by lia; replace (x <? i + ni) with true by lia;
             replace (y <? j + nj) with true by lia; reflexivity);
        rewrite F3 by lia; rewrite V2 by auto;
        (replace ((x <? i) || (x <? i + ni) && (y <? j + nj)) with ((x <? i) || (x <? i + ni) && (y <? j)); [reflexivity|];
         destruct (x <? i) eqn:E1, (x <? i + ni) eqn:E2, (y <? j) eqn:E3, (y <? j + nj) eqn:E4; auto; lia).
  Qed.
End Loops.

Section S.
  Context {T : Type} (K : num T).
  Implicit Types (m : Z -> T).
  Local Notation "x +' y" := (add K x y) (at level 50, left associativity).
  Local Notation "x *' y" := (mul K x y) (at level 40, left associativity).
  Hypotheses (HR : is_ring K) (HE : eqb_ok K).
  Let HR' : ring_theory (zero K) (one K) (add K) (mul K) (sub K) (opp K) eq := HR.
  Add Ring Kring : HR'.

  (* element (i, j) of the symmetric matrix stored in one triangle of A, its diagonal taken as
     ones if un is set *)
  Definition symu (up un : bool) m (A : view) (i j : Z) : T :=
    if un && (i =? j) then one K else sym up m A i j.

  Lemma symu_comm : forall up un m A i j, symu up un m A i j = symu up un m A j i.
  Proof.
    intros up un m A i j. unfold symu, sym. rewrite (Z.eqb_sym j i).
    destruct (Z.eqb_spec i j) as [->|Hn]; [reflexivity|]. rewrite andb_false_r.
    destruct up.
    - destruct (i <=? j) eqn:E1, (j <=? i) eqn:E2; auto; lia.
    - destruct (i <=? j) eqn:E1, (j <=? i) eqn:E2; auto; lia.
  Qed.

  Section Fill.
    Variables (L : Z -> bool) (d s : view) (up un : bool) (n : Z).
    Hypotheses (Od : mok L d) (Ws : wf s) (Ls : tri_allocated L up s) (D : disjoint d s)
      (E1 : rows d = n) (E2 : cols d = n) (E3 : rows s = n) (E4 : cols s = n).

    Lemma cp_wp : forall m a b i j (Q : unit -> (Z -> T) -> Prop), pos d a b -> pos s i j -> intri up i j ->
      (forall m', elt m' d a b = elt m s i j ->
         (forall a' b', pos d a' b' -> (a', b') <> (a, b) -> elt m' d a' b' = elt m d a' b') -> only_changes d m m' -> Q tt m') ->
      wp (x <- rd (elems s + (i + j * step s)) ;; wr (elems d + (a + b * step d)) x) L m Q.
    Proof.
      intros m a b i j Q Hd Hs Hi HQ. wbind. apply wp_rd.
      - apply Ls. exists i, j. split; [auto|]. split; [auto|]. lia.
      - replace (elems d + (a + b * step d)) with (elems d + (b * step d + a)) by ring.
        apply (set_unsafe_wp L m d a b); try apply Od; auto.
        intros m' V1 V2 V3. apply HQ; auto. rewrite V1. unfold elt. f_equal. lia.
    Qed.

    Lemma fill_diag_wp : forall m j (Q : unit -> (Z -> T) -> Prop), 0 <= j < n ->
      (forall m', elt m' d j j = symu up un m s j j ->
         (forall a' b', pos d a' b' -> (a', b') <> (j, j) -> elt m' d a' b' = elt m d a' b') -> only_changes d m m' -> Q tt m') ->
      wp (fill_diag K (elems d + (j + j * step d)) (elems s + (j + j * step s)) un) L m Q.
    Proof.
      intros m j Q Hj HQ. unfold fill_diag. unfold symu in HQ. rewrite Z.eqb_refl, andb_true_r in HQ.
      assert (Es : sym up m s j j = elt m s j j) by (unfold sym; rewrite Z.leb_refl; destruct up; reflexivity).
      destruct un.
      - replace (elems d + (j + j * step d)) with (elems d + (j * step d + j)) by ring.
        apply (set_unsafe_wp L m d j j); try apply Od; auto. split; lia.
      - apply cp_wp; [split; lia|split; lia|destruct up; cbn; lia|]. rewrite Es in HQ. exact HQ.
    Qed.

    Lemma pair_wp : forall m m0 i j (Q : unit -> (Z -> T) -> Prop), 0 <= i < n -> 0 <= j < n -> i <> j -> intri up i j ->
      only_changes d m0 m ->
      (forall m', elt m' d i j = symu up un m0 s i j -> elt m' d j i = symu up un m0 s j i ->
         (forall a' b', pos d a' b' -> (a', b') <> (i, j) -> (a', b') <> (j, i) -> elt m' d a' b' = elt m d a' b') ->
         only_changes d m0 m' -> Q tt m') ->
      wp ((x <- rd (elems s + (i + j * step s)) ;; wr (elems d + (i + j * step d)) x) ;;
          (x <- rd (elems s + (i + j * step s)) ;; wr (elems d + (j + i * step d)) x)) L m Q.
    Proof.
      intros m m0 i j Q Hi Hj Hn Ht O HQ.
      assert (Ps : pos s i j) by (split; lia).
      assert (Es : symu up un m0 s i j = elt m0 s i j).
      { unfold symu. replace (i =? j) with false by lia. rewrite andb_false_r. unfold sym.
        replace (if up then i <=? j else j <=? i) with true; auto. destruct up; cbn in Ht; lia. }
      wbind. apply cp_wp; [split; lia|exact Ps|exact Ht|]. intros m1 V1 F1 O1.
      apply cp_wp; [split; lia|exact Ps|exact Ht|]. intros m2 V2 F2 O2.
      assert (O01 : only_changes d m0 m1) by (eapply only_trans; eauto).
      apply HQ.
      - rewrite F2 by (first [split; lia|intros Eq; injection Eq; lia]). rewrite V1, Es. apply (oc_elt d s m0 m); auto.
      - rewrite V2, symu_comm, Es. apply (oc_elt d s m0 m1); auto.
      - intros a b Hp N1 N2. rewrite F2, F1 by auto. reflexivity.
      - eapply only_trans; eauto.
    Qed.

    Lemma fill_low_wp : forall m (Q : unit -> (Z -> T) -> Prop), up = true ->
      (forall m', (forall i j, pos d i j -> elt m' d i j = symu up un m s i j) -> only_changes d m m' -> Q tt m') ->
      wp (colcpy_fill_low K (elems d) (step d) (elems s) (step s) n n un) L m Q.
    Proof.
      intros m Q Hup HQ. assert (Hn : 0 <= n) by (destruct Ws as (? & _); lia).
      unfold colcpy_fill_low.
      apply wp_for1 with (I := fun j m' => only_changes d m m' /\
        forall a b, 0 <= a < j -> 0 <= b < j -> elt m' d a b = symu up un m s a b).
      { split; [apply oc_refl|]. lia. }
      2:{ intros m' (O & V). rewrite Z.max_r in V by lia. apply HQ; auto. intros i j (Hi & Hj). apply V; lia. }
      intros j m1 Hj (O1 & V1). wbind.
      apply wp_for1 with (I := fun i m' => only_changes d m m' /\
        (forall a b, 0 <= a < j -> 0 <= b < j -> elt m' d a b = symu up un m s a b) /\
        (forall a, 0 <= a < i -> elt m' d a j = symu up un m s a j /\ elt m' d j a = symu up un m s j a)).
      { split; [auto|]. split; [auto|]. lia. }
      - intros i m2 Hi (O2 & V2 & W2). apply (pair_wp m2 m); auto; try lia. { rewrite Hup. cbn. lia. }
        intros m3 X1 X2 X3 X4. split; [auto|]. split.
        + intros a b Ha Hb. rewrite X3; [auto|split; lia|intros Eq; injection Eq; lia|intros Eq; injection Eq; lia].
        + intros a Ha. destruct (Z.eq_dec a i) as [->|Na]; [auto|].
          rewrite !X3; [apply W2; lia|split; lia|intros Eq; injection Eq; lia|intros Eq; injection Eq; lia|
            split; lia|intros Eq; injection Eq; lia|intros Eq; injection Eq; lia].
      - intros m2 (O2 & V2 & W2). rewrite Z.max_r in W2 by lia. apply fill_diag_wp; [lia|].
        intros m3 X1 X2 X3. split; [eapply only_trans; eauto|]. intros a b Ha Hb.
        destruct (Z.eq_dec a j) as [->|Na], (Z.eq_dec b j) as [->|Nb].
        + rewrite X1. unfold symu, sym. destruct (un && (j =? j)); auto.
          rewrite (oc_elt d s m m2) by (auto; split; lia). destruct (if up then j <=? j else j <=? j); reflexivity.
        + rewrite X2; [apply W2; lia|split; lia|intros Eq; injection Eq; lia].
        + rewrite X2; [apply W2; lia|split; lia|intros Eq; injection Eq; lia].
        + rewrite X2; [apply V2; lia|split; lia|intros Eq; injection Eq; lia].
    Qed.

    Lemma fill_up_wp : forall m (Q : unit -> (Z -> T) -> Prop), up = false ->
      (forall m', (forall i j, pos d i j -> elt m' d i j = symu up un m s i j) -> only_changes d m m' -> Q tt m') ->
      wp (colcpy_fill_up K (elems d) (step d) (elems s) (step s) n n un) L m Q.
    Proof.
      intros m Q Hup HQ. assert (Hn : 0 <= n) by (destruct Ws as (? & _); lia).
      unfold colcpy_fill_up.
      apply wp_for1 with (I := fun j m' => only_changes d m m' /\
        forall a b, pos d a b -> a < j \/ b < j -> elt m' d a b = symu up un m s a b).
      { split; [apply oc_refl|]. intros a b (Ha & Hb). lia. }
      2:{ intros m' (O & V). rewrite Z.max_r in V by lia. apply HQ; auto. intros i j Hp. apply V; auto. destruct Hp. lia. }
      intros j m1 Hj (O1 & V1). wbind. apply fill_diag_wp; [lia|].
      intros m2 X1 X2 X3.
      assert (O2 : only_changes d m m2) by (eapply only_trans; eauto).
      apply wp_for1 with (I := fun i m' => only_changes d m m' /\
        (forall a b, pos d a b -> a < j \/ b < j -> elt m' d a b = symu up un m s a b) /\
        (forall a, j <= a < i -> elt m' d a j = symu up un m s a j /\ elt m' d j a = symu up un m s j a)).
      { split; [auto|]. split.
        - intros a b Hp Hab. rewrite X2; [auto|auto|intros Eq; injection Eq; lia].
        - intros a Ha. replace a with j by lia. 
          assert (Ej : elt m2 d j j = symu up un m s j j).
          { rewrite X1. unfold symu, sym. destruct (un && (j =? j)); auto.
            rewrite (oc_elt d s m m1) by (auto; split; lia). destruct (if up then j <=? j else j <=? j); reflexivity. }
          auto. }
      - intros i m3 Hi (O3 & V3 & W3). apply (pair_wp m3 m); auto; try lia. { rewrite Hup. cbn. lia. }
        intros m4 Y1 Y2 Y3 Y4. split; [auto|]. split.
        + intros a b Hp Hab. rewrite Y3; [auto|auto|intros Eq; injection Eq; lia|intros Eq; injection Eq; lia].
        + intros a Ha. destruct (Z.eq_dec a i) as [->|Na]; [auto|].
          rewrite !Y3; [apply W3; lia|split; lia|intros Eq; injection Eq; lia|intros Eq; injection Eq; lia|
            split; lia|intros Eq; injection Eq; lia|intros Eq; injection Eq; lia].
      - intros m3 (O3 & V3 & W3). rewrite Z.max_r in W3 by lia. split; [auto|]. intros a b Hp Hab.
        pose proof Hp as (Ha & Hb). destruct (Z_lt_dec a j); [apply V3; auto|]. destruct (Z_lt_dec b j); [apply V3; auto|].
        destruct (Z.eq_dec a j) as [->|Na]; [apply W3; lia|]. replace b with j by lia. apply W3; lia.
    Qed.
  End Fill.

  Lemma vsum3 : forall N a n f, 0 <= a -> 0 <= n -> a + n <= N ->
    vsum K N f = vsum K a f +' vsum K n (fun k => f (a + k)) +' vsum K (N - a - n) (fun k => f (a + n + k)).
  Proof.
    intros N a n f Ha Hn Hl. replace (vsum K N f) with (vsum K (a + (n + (N - a - n))) f) by (f_equal; ring).
    rewrite (vsum_split K HR a), (vsum_split K HR n) by Lia.lia.
    rewrite <- (vsum_ext K (N - a - n) (fun k => f (a + n + k)) (fun k => f (a + (n + k)))).
    - ring.
    - intros k Hk. f_equal. ring.
  Qed.

  Section Blk.
    Variables (L : Z -> bool) (ch : cache).
    Let Av := mkview (Acpy ch) (ab_step ch) (KB ch) (MB ch).
    Let Bv := mkview (Bcpy ch) (ab_step ch) (KB ch) (NB ch).
    Hypotheses (OK : blocks_ok L ch) (Hrb : 0 < rb ch <= MB ch).

    Lemma OAv : mok L Av.
    Proof. exact (wfAv L ch OK). Qed.
    Lemma OBv : mok L Bv.
    Proof. exact (wfBv L ch OK). Qed.

    (* C += alpha*op(A)*op(B), the products being F *)
    Lemma part_wp : forall m C A B alpha flags P (F : Z -> Z -> Z -> T) (Q : unit -> (Z -> T) -> Prop),
      mok L C -> mok L A -> mok L B -> disjoint C A -> disjoint C B -> away ch C -> away ch A -> away ch B ->
      shapeA C A flags P -> shapeB C B flags P ->
      (forall a b k, pos C a b -> 0 <= k < P -> opA K A flags m a k *' opB K B flags m k b = F a b k) ->
      (forall m', (forall a b, pos C a b -> elt m' C a b = elt m C a b +' vsum K P (F a b) *' alpha) ->
         outside3 C Av Bv m m' -> Q tt m') ->
      wp (armas_mult_kernel_nc K C alpha A B flags ch) L m Q.
    Proof.
      intros m C A B alpha flags P F Q OC OA OB DA DB (W1 & W2) (W3 & W4) (W5 & W6) SA SB HF HQ.
      apply (kernel_nc_wp K HR L C A B alpha flags P ch); auto; try lia.
      intros m' V O. apply HQ; auto. intros a b Hp. rewrite V by auto. unfold opdot. do 2 f_equal.
      apply vsum_ext. intros k Hk. apply HF; auto.
    Qed.

    (* the block of B as it is used beside the diagonal block: n x q *)
    Lemma bcopy_wp : forall m B n q (tr : bool) flags (Q : unit -> (Z -> T) -> Prop),
      mok L B -> away ch B -> 0 <= n <= KB ch -> 0 <= q <= NB ch ->
      rows B = (if tr then q else n) -> cols B = (if tr then n else q) -> has flags absflags = false ->
      (forall m', (forall k y, 0 <= k < n -> 0 <= y < q -> elt m' (armas_make n q (ab_step ch) (Bcpy ch)) k y =
            if tr then elt m B y k else elt m B k y) -> only_changes Bv m m' -> Q tt m') ->
      wp (if tr then CPBLK_TRANS K (armas_make n q (ab_step ch) (Bcpy ch)) B (rows B) (cols B) flags
          else CPBLK K (armas_make n q (ab_step ch) (Bcpy ch)) B (rows B) (cols B) flags) L m Q.
    Proof.
      intros m B n q tr flags Q OB (W1 & W2) Hn Hq E1 E2 Hab HQ.
      set (Bc := armas_make n q (ab_step ch) (Bcpy ch)).
      assert (EB : Bc = armas_submatrix_unsafe Bv 0 0 n q) by apply make_sub.
      assert (OBc : mok L Bc) by (rewrite EB; apply mok_sub; [apply OBv|cbn; lia..]).
      assert (In : forall a, cell Bc a -> cell Bv a).
      { intros a. rewrite EB. apply subm_in; [apply OBv|cbn; lia..]. }
      assert (D : disjoint Bc B) by (intros a Ha Hb; apply (W2 a); auto).
      destruct tr.
      - apply CPBLK_TRANS_wp; auto. intros m' V O. apply HQ; [|eapply oc_mono; [exact In|exact O]].
        intros k y Hk Hy. fold Bc. rewrite V by (split; cbn; lia). unfold absf. rewrite Hab. reflexivity.
      - apply CPBLK_wp; auto. intros m' V O. apply HQ; [|eapply oc_mono; [exact In|exact O]].
        intros k y Hk Hy. fold Bc. rewrite V by (split; cbn; lia). unfold absf. rewrite Hab. reflexivity.
    Qed.

    Lemma diag_wp : forall m C A B alpha flags n q (Q : unit -> (Z -> T) -> Prop),
      let up := has flags ARMAS_UPPER in let un := has flags ARMAS_UNIT in
      let right := has flags ARMAS_RIGHT in let tb := has flags ARMAS_TRANSB in
      has flags ARMAS_LOWER = negb up -> has flags absflags = false ->
      mok L C -> tok L up A -> mok L B -> disjoint C A -> disjoint C B -> away ch C -> away ch A -> away ch B ->
      rows A = n -> cols A = n -> 0 <= n <= KB ch -> n <= MB ch -> 0 <= q <= NB ch ->
      rows C = (if right then q else n) -> cols C = (if right then n else q) ->
      rows B = (if xorb right tb then q else n) -> cols B = (if xorb right tb then n else q) ->
      (forall m', (forall a b, pos C a b -> elt m' C a b = elt m C a b +' vsum K n (fun k =>
           if right then (if tb then elt m B k a else elt m B a k) *' symu up un m A k b
           else symu up un m A a k *' (if tb then elt m B b k else elt m B k b)) *' alpha) ->
         outside3 C Av Bv m m' -> Q tt m') ->
      wp (mult_symm_diag K C alpha A B flags ch) L m Q.
    Proof.
      intros m C A B alpha flags n q Q up un right tb Hlo Hab OC OA OB DA DB AC AA AB RA CA Hn HnM Hq RC CC RB CB HQ.
      unfold mult_symm_diag. cbv zeta. rewrite RA, CA.
      set (Ac := armas_make n n (ab_step ch) (Acpy ch)).
      assert (EA : Ac = armas_submatrix_unsafe Av 0 0 n n) by apply make_sub.
      assert (OAc : mok L Ac) by (rewrite EA; apply mok_sub; [apply OAv|cbn; lia..]).
      assert (In : forall a, cell Ac a -> cell Av a).
      { intros a. rewrite EA. apply subm_in; [apply OAv|cbn; lia..]. }
      assert (DAA : disjoint Ac A) by (intros a Ha Hb; apply (proj1 AA a); auto).
      pose proof OK as (_ & _ & _ & _ & _ & _ & DAB). fold Av Bv in DAB.
      wbind.
      assert (W : forall m', (forall i j, pos Ac i j -> elt m' Ac i j = symu up un m A i j) -> only_changes Ac m m' ->
        wp (if has flags ARMAS_RIGHT then
              if has flags ARMAS_TRANSB then
                let Bc := armas_make (rows B) (cols B) (ab_step ch) (Bcpy ch) in
                CPBLK K Bc B (rows B) (cols B) flags ;; armas_mult_kernel_inner K C alpha Bc Ac (rb ch)
              else
                let Bc := armas_make (cols B) (rows B) (ab_step ch) (Bcpy ch) in
                CPBLK_TRANS K Bc B (rows B) (cols B) flags ;; armas_mult_kernel_inner K C alpha Bc Ac (rb ch)
            else
              if has flags ARMAS_TRANSB then
                let Bc := armas_make (cols B) (rows B) (ab_step ch) (Bcpy ch) in
                CPBLK_TRANS K Bc B (rows B) (cols B) flags ;; armas_mult_kernel_inner K C alpha Ac Bc (rb ch)
              else
                let Bc := armas_make (rows B) (cols B) (ab_step ch) (Bcpy ch) in
                CPBLK K Bc B (rows B) (cols B) flags ;; armas_mult_kernel_inner K C alpha Ac Bc (rb ch)) L m' Q).
      2:{ destruct (has flags ARMAS_LOWER) eqn:El.
          - apply (fill_up_wp L Ac A up un n); auto; try apply OA. destruct up; auto; discriminate.
          - apply (fill_low_wp L Ac A up un n); auto; try apply OA. destruct up; auto; discriminate. }
      intros m1 V1 O1.
      assert (O1' : outside3 C Av Bv m m1) by (eapply out3_oc; [exact O1|]; auto).
      set (Bc := armas_make n q (ab_step ch) (Bcpy ch)).
      assert (EB : Bc = armas_submatrix_unsafe Bv 0 0 n q) by apply make_sub.
      assert (OBc : mok L Bc) by (rewrite EB; apply mok_sub; [apply OBv|cbn; lia..]).
      assert (InB : forall a, cell Bc a -> cell Bv a).
      { intros a. rewrite EB. apply subm_in; [apply OBv|cbn; lia..]. }
      assert (DCA : disjoint C Ac) by (intros a Ha Hb; apply (proj1 AC a); auto).
      assert (DCB : disjoint C Bc) by (intros a Ha Hb; apply (proj2 AC a); auto).
      assert (DBA : disjoint Bv Ac) by (intros a Ha Hb; apply (DAB a); auto).
      pose proof (bcopy_wp m1 B n q (xorb right tb) flags) as BW. fold Bc in BW.
      assert (FIN : forall m2, (forall k y, 0 <= k < n -> 0 <= y < q -> elt m2 Bc k y =
            if xorb right tb then elt m1 B y k else elt m1 B k y) -> only_changes Bv m1 m2 ->
            wp (if right then armas_mult_kernel_inner K C alpha Bc Ac (rb ch) else armas_mult_kernel_inner K C alpha Ac Bc (rb ch)) L m2 Q).
      { intros m2 V2 O2.
        assert (O2' : outside3 C Av Bv m m2).
        { eapply out3_trans; [exact O1'|]. eapply out3_oc; [exact O2|]. auto. }
        assert (EC : forall a b, pos C a b -> elt m2 C a b = elt m C a b).
        { intros a b Hp. rewrite (oc_elt Bv C m1 m2), (oc_elt Ac C m m1); auto.
          - intros z Hz Hz'. apply (DCA z); auto.
          - intros z Hz Hz'. apply (proj2 AC z); auto. }
        assert (EBm : forall a b, pos B a b -> elt m1 B a b = elt m B a b).
        { intros a b Hp. apply (oc_elt Ac B m m1); auto. intros z Hz Hz'. apply (proj1 AB z); auto. }
        assert (EAc : forall i j, 0 <= i < n -> 0 <= j < n -> elt m2 Ac i j = symu up un m A i j).
        { intros i j Hi Hj. rewrite (oc_elt Bv Ac m1 m2); auto; [apply V1|]; split; cbn; lia. }
        destruct right.
        - apply inner_wp; auto; try (cbn; lia). intros m3 V3 O3. apply HQ.
          + intros a b Hp. rewrite V3, EC by auto. do 2 f_equal. change (rows Bc) with n. destruct Hp as (Ha & Hb).
            apply vsum_ext. intros k Hk. rewrite EAc, V2 by lia. cbn [xorb]. destruct tb; cbn [xorb negb] in *; rewrite EBm by (split; lia); reflexivity.
          + eapply out3_trans; [exact O2'|]. eapply out3_oc; [exact O3|]. auto.
        - apply inner_wp; auto; try (cbn; lia). intros m3 V3 O3. apply HQ.
          + intros a b Hp. rewrite V3, EC by auto. do 2 f_equal. change (rows Ac) with n. destruct Hp as (Ha & Hb).
            apply vsum_ext. intros k Hk. rewrite EAc, V2 by lia. rewrite symu_comm. cbn [xorb]. destruct tb; cbn [xorb negb] in *; rewrite EBm by (split; lia); reflexivity.
          + eapply out3_trans; [exact O2'|]. eapply out3_oc; [exact O3|]. auto. }
      clear V1 HQ.
      assert (Hq' : 0 <= q <= NB ch) by auto.
      specialize (BW (fun _ m2 => wp (if right then armas_mult_kernel_inner K C alpha Bc Ac (rb ch)
         else armas_mult_kernel_inner K C alpha Ac Bc (rb ch)) L m2 Q) OB AB Hn Hq' RB CB Hab FIN).
      fold right tb. destruct right, tb; cbn [xorb negb] in *; cbv zeta; rewrite RB, CB in *; wbind; exact BW.
    Qed.

    Lemma away_sub : forall V r c nr nc, away ch V -> wf V -> 0 <= r -> 0 <= c -> 0 <= nr -> 0 <= nc ->
      r + nr <= rows V -> c + nc <= cols V -> away ch (armas_submatrix_unsafe V r c nr nc).
    Proof. intros V r c nr nc HA W H1 H2 H3 H4 H5 H6. eapply away_in; [|exact HA]. intros a. apply subm_in; auto. Qed.

    Lemma disj_sub : forall V W r c nr nc r' c' nr' nc', disjoint V W -> wf V -> wf W -> 0 <= r -> 0 <= c -> 0 <= nr -> 0 <= nc ->
      r + nr <= rows V -> c + nc <= cols V -> 0 <= r' -> 0 <= c' -> 0 <= nr' -> 0 <= nc' -> r' + nr' <= rows W -> c' + nc' <= cols W ->
      disjoint (armas_submatrix_unsafe V r c nr nc) (armas_submatrix_unsafe W r' c' nr' nc').
    Proof.
      intros V W r c nr nc r' c' nr' nc' D WV WW H1 H2 H3 H4 H5 H6 H7 H8 H9 H10 H11 H12 a Ha Hb. apply (D a).
      - eapply subm_in; [exact WV|..|exact Ha]; auto.
      - eapply subm_in; [exact WW|..|exact Hb]; auto.
    Qed.

    (* an element off the diagonal *)
    Lemma symu_off : forall up un m A i j, i < j ->
      symu up un m A i j = (if up then elt m A i j else elt m A j i) /\
      symu up un m A j i = (if up then elt m A i j else elt m A j i).
    Proof.
      intros up un m A i j H. rewrite (symu_comm up un m A j i). unfold symu, sym.
      replace (i =? j) with false by lia. rewrite andb_false_r. replace (i <=? j) with true by lia. replace (j <=? i) with false by lia.
      destruct up; auto.
    Qed.

    Lemma symu_sub : forall up un m A r nr nc i j,
      symu up un m (armas_submatrix_unsafe A r r nr nc) i j = symu up un m A (r + i) (r + j).
    Proof.
      intros up un m A r nr nc i j. unfold symu, sym. rewrite !subm_elt.
      replace (r + i =? r + j) with (i =? j) by (destruct (i =? j) eqn:E; lia).
      replace (r + i <=? r + j) with (i <=? j) by (destruct (i <=? j) eqn:E; lia).
      replace (r + j <=? r + i) with (j <=? i) by (destruct (j <=? i) eqn:E; lia). reflexivity.
    Qed.

    Section Main.
      Variables (C A B : view) (alpha beta : T) (flags N : Z) (m0 : Z -> T).
      Let up := has flags ARMAS_UPPER.
      Let un := has flags ARMAS_UNIT.
      Let tb := has flags ARMAS_TRANSB.
      Let right := has flags ARMAS_RIGHT.
      Hypotheses (Hlo : has flags ARMAS_LOWER = negb up) (Hab : has flags absflags = false)
        (OC : mok L C) (OA : tok L up A) (OB : mok L B) (DA : disjoint C A) (DB : disjoint C B)
        (AC : away ch C) (AA : away ch A) (AB : away ch B) (RA : rows A = N) (CA : cols A = N).

      Definition Bel m (k j : Z) : T := if tb then elt m B j k else elt m B k j.

      Lemma symu_out : forall m m' i j, outside3 C Av Bv m m' -> 0 <= i < N -> 0 <= j < N -> symu up un m' A i j = symu up un m A i j.
      Proof.
        intros m m' i j H Hi Hj. unfold symu, sym. destruct AA.
        rewrite !(out3_elt _ C Av Bv A m m') by (auto; split; lia). reflexivity.
      Qed.

      Lemma tri_in : forall i j, i < j -> intri true i j.
      Proof. intros; cbn; lia. Qed.

      Lemma flags_lr : forall u t : bool,
        (let f := Z.lor (if u then ARMAS_TRANSA else 0) (if t then ARMAS_TRANSB else 0) in
         has f transA = u /\ has f transB = t /\ has f absflags = false) /\
        (let f := Z.lor (if u then 0 else ARMAS_TRANSA) (if t then ARMAS_TRANSB else 0) in
         has f transA = negb u /\ has f transB = t /\ has f absflags = false) /\
        (let f := Z.lor (if t then ARMAS_TRANSA else 0) (if u then 0 else ARMAS_TRANSB) in
         has f transA = t /\ has f transB = negb u /\ has f absflags = false) /\
        (let f := Z.lor (if t then ARMAS_TRANSA else 0) (if u then ARMAS_TRANSB else 0) in
         has f transA = t /\ has f transB = u /\ has f absflags = false).
      Proof. intros [] []; repeat split; reflexivity. Qed.

      Lemma left_block_wp : forall m i nI j nJ (Q : unit -> (Z -> T) -> Prop), right = false -> rows C = N ->
        rows B = (if tb then cols C else N) -> cols B = (if tb then N else cols C) ->
        0 <= i -> 0 < nI -> i + nI <= N -> nI <= MB ch -> nI <= KB ch -> 0 <= j -> 0 < nJ <= NB ch -> j + nJ <= cols C ->
        outside3 C Av Bv m0 m ->
        (forall m', (forall a b, 0 <= a < nI -> 0 <= b < nJ -> elt m' C (i + a) (j + b) = elt m C (i + a) (j + b) *' beta +'
             vsum K N (fun k => symu up un m0 A (i + a) k *' Bel m0 k (j + b)) *' alpha) ->
           outside3 (armas_submatrix_unsafe C i j nI nJ) Av Bv m m' -> Q tt m') ->
        wp (symm_left_block K beta C alpha A B flags 0 ch i nI j nJ) L m Q.
      Proof.
        intros m i nI j nJ Q Hr RC RB CB Hi HnI Hle HM HKB Hj HnJ Hle2 O0 HQ.
        pose proof OC as (WC & _). pose proof OA as (WA & _). pose proof OB as (WB & _).
        destruct (flags_lr up tb) as ((F1a & F1b & F1c) & (F2a & F2b & F2c) & _).
        unfold symm_left_block. cbv zeta. fold up tb.
        set (flags1 := Z.lor (if up then ARMAS_TRANSA else 0) (if tb then ARMAS_TRANSB else 0)) in *. clearbody flags1.
        set (flags2 := Z.lor (if up then 0 else ARMAS_TRANSA) (if tb then ARMAS_TRANSB else 0)) in *. clearbody flags2.
        rewrite !Z.add_0_l.
        set (C0 := armas_submatrix_unsafe C i j nI nJ).
        set (G := fun a b k => symu up un m0 A (i + a) k *' Bel m0 k (j + b)).
        assert (OC0 : mok L C0) by (apply mok_sub; auto; lia).
        assert (InC : forall a, cell C0 a -> cell C a) by (intros a; apply subm_in; auto; lia).
        assert (AC0 : away ch C0) by (apply away_sub; auto; lia).
        assert (chgC : forall m m', outside3 C0 Av Bv m m' -> outside3 C Av Bv m m').
        { intros x x' Hx z Hz1 Hz2 Hz3. apply Hx; auto. }
        wbind. apply scale_all_wp; try apply OC0; auto. intros m1 V1 O1.
        assert (O1' : outside3 C0 Av Bv m m1) by (eapply out3_oc; [exact O1|]; auto).
        assert (O01 : outside3 C Av Bv m0 m1) by (eapply out3_trans; [exact O0|apply chgC; exact O1']).
        assert (EB : forall x k b, outside3 C Av Bv m0 x -> 0 <= k < N -> 0 <= b < cols C -> Bel x k b = Bel m0 k b).
        { intros x k b Hx Hk Hb. unfold Bel. destruct AB. revert RB CB. destruct tb; intros; eapply out3_elt; eauto; split; lia. }
        wbind.
        apply part_wp with (P := i) (F := G); auto.
        { apply (tok_blk L up); auto; try (destruct up; lia). intros x y. destruct up; cbn; lia. }
        { revert RB CB. destruct tb; intros; apply mok_sub; auto; lia. }
        { apply disj_sub; auto; destruct up; lia. }
        { revert RB CB. destruct tb; intros; apply disj_sub; auto; lia. }
        { apply away_sub; auto; destruct up; lia. }
        { revert RB CB. destruct tb; intros; apply away_sub; auto; lia. }
        { unfold shapeA. rewrite F1a. destruct up; split; reflexivity. }
        { unfold shapeB. rewrite F1b. destruct tb; split; reflexivity. }
        { intros a b k (Ha & Hb) Hk. cbn in Ha, Hb. unfold opA, opB, absf, G. rewrite F1a, F1b, F1c.
          rewrite <- (symu_out m0 m1) by (auto; lia).
          rewrite <- (EB m1 k (j + b)) by (auto; lia).
          rewrite (proj2 (symu_off up un m1 A k (i + a) ltac:(lia))). unfold Bel.
          f_equal; [destruct up|destruct tb]; rewrite subm_elt; f_equal; lia. }
        intros m2 V2 O2.
        assert (O02 : outside3 C Av Bv m0 m2).
        { eapply out3_trans; [exact O0|]. apply chgC. eapply out3_trans; [exact O1'|exact O2]. }
        wbind. apply diag_wp with (n := nI) (q := nJ); auto; try lia.
        { apply tok_sub; auto; lia. }
        { revert RB CB. destruct tb; intros; apply mok_sub; auto; lia. }
        { apply disj_sub; auto; lia. }
        { revert RB CB. destruct tb; intros; apply disj_sub; auto; lia. }
        { apply away_sub; auto; lia. }
        { revert RB CB. destruct tb; intros; apply away_sub; auto; lia. }
        { fold right. rewrite Hr. reflexivity. }
        { fold right. rewrite Hr. reflexivity. }
        { fold right tb. rewrite Hr. destruct tb; reflexivity. }
        { fold right tb. rewrite Hr. destruct tb; reflexivity. }
        fold right tb up un. rewrite Hr. intros m3 V3 O3.
        assert (O03 : outside3 C Av Bv m0 m3) by (eapply out3_trans; [exact O02|apply chgC; exact O3]).
        apply part_wp with (P := N - i - nI) (F := fun a b k => G a b (i + nI + k)); auto.
        { apply (tok_blk L up); auto; try (destruct up; lia). intros x y. destruct up; cbn; lia. }
        { revert RB CB. destruct tb; intros; apply mok_sub; auto; lia. }
        { apply disj_sub; auto; destruct up; lia. }
        { revert RB CB. destruct tb; intros; apply disj_sub; auto; lia. }
        { apply away_sub; auto; destruct up; lia. }
        { revert RB CB. destruct tb; intros; apply away_sub; auto; lia. }
        { unfold shapeA. rewrite F2a. destruct up; cbn [negb]; split; cbn [rows cols armas_submatrix_unsafe armas_make]; unfold C0; cbn; lia. }
        { unfold shapeB. rewrite F2b. revert RB CB. destruct tb; intros; split; cbn; lia. }
        { intros a b k (Ha & Hb) Hk. cbn in Ha, Hb. unfold opA, opB, absf, G. rewrite F2a, F2b, F2c.
          rewrite <- (symu_out m0 m3) by (auto; lia).
          rewrite <- (EB m3 (i + nI + k) (j + b)) by (auto; lia).
          rewrite (proj1 (symu_off up un m3 A (i + a) (i + nI + k) ltac:(lia))). unfold Bel.
          f_equal; [destruct up|destruct tb]; cbn [negb]; rewrite subm_elt; f_equal; lia. }
        intros m4 V4 O4. apply HQ.
        - intros a b Ha Hb. assert (Hp : pos C0 a b) by (split; cbn; lia).
          assert (EC : forall x : Z -> T, elt x C (i + a) (j + b) = elt x C0 a b) by (intros; unfold C0; rewrite subm_elt; reflexivity).
          rewrite !EC, V4, V3, V2, V1 by auto.
          change (vsum K N (fun k => symu up un m0 A (i + a) k *' Bel m0 k (j + b))) with (vsum K N (G a b)).
          rewrite (vsum3 N i nI (G a b)) by lia.
          rewrite (vsum_ext K nI _ (fun k => G a b (i + k))); [ring|].
          intros k Hk. rewrite symu_sub. unfold G. rewrite (symu_out m0 m2) by (auto; lia).
          rewrite <- (EB m2 (i + k) (j + b)) by (auto; lia). unfold Bel. destruct tb; rewrite subm_elt; reflexivity.
        - eapply out3_trans; [exact O1'|]. eapply out3_trans; [exact O2|]. eapply out3_trans; [exact O3|exact O4].
      Qed.
      Lemma sub_same : forall V r c nr nc, rows V * cols V <> 0 -> 0 <= r -> 0 <= c -> 0 <= nr -> 0 <= nc -> 0 <= step V ->
        armas_submatrix V r c nr nc = armas_submatrix_unsafe V r c nr nc.
      Proof.
        intros V r c nr nc H0 H1 H2 H3 H4 H5. unfold armas_submatrix, armas_submatrix_ext, armas_submatrix_unsafe, armas_size.
        replace (rows V * cols V =? 0) with false by lia. replace (r <? 0) with false by lia. replace (c <? 0) with false by lia.
        replace (nr <? 0) with false by lia. replace (nc <? 0) with false by lia. replace (step V <? 0) with false by lia. reflexivity.
      Qed.

      Lemma right_block_wp : forall m i nC j nR (Q : unit -> (Z -> T) -> Prop), right = true -> cols C = N ->
        rows B = (if tb then N else rows C) -> cols B = (if tb then rows C else N) ->
        0 <= i -> 0 < nC -> i + nC <= N -> nC <= MB ch -> nC <= KB ch -> 0 <= j -> 0 < nR <= NB ch -> j + nR <= rows C ->
        outside3 C Av Bv m0 m ->
        (forall m', (forall a b, 0 <= a < nR -> 0 <= b < nC -> elt m' C (j + a) (i + b) = elt m C (j + a) (i + b) *' beta +'
             vsum K N (fun k => Bel m0 (j + a) k *' symu up un m0 A k (i + b)) *' alpha) ->
           outside3 (armas_submatrix_unsafe C j i nR nC) Av Bv m m' -> Q tt m') ->
        wp (symm_right_block K beta C alpha A B flags 0 ch i nC j nR) L m Q.
      Proof.
        intros m i nC j nR Q Hr RC RB CB Hi HnI Hle HM HKB Hj HnJ Hle2 O0 HQ.
        pose proof OC as (WC & _). pose proof OA as (WA & _). pose proof OB as (WB & _).
        destruct (flags_lr up tb) as (_ & _ & (F1a & F1b & F1c) & (F2a & F2b & F2c)).
        unfold symm_right_block. cbv zeta. fold up tb.
        set (flags1 := Z.lor (if tb then ARMAS_TRANSA else 0) (if up then 0 else ARMAS_TRANSB)) in *. clearbody flags1.
        set (flags2 := Z.lor (if tb then ARMAS_TRANSA else 0) (if up then ARMAS_TRANSB else 0)) in *. clearbody flags2.
        rewrite !Z.add_0_l.
        assert (SB : rows B * cols B <> 0 /\ 0 <= step B).
        { split; [apply Z.neq_mul_0; revert RB CB; destruct tb; intros; lia|destruct WB as (? & ? & ?); lia]. }
        destruct SB as (SB1 & SB2). rewrite !sub_same by (try exact SB1; try exact SB2; lia).
        set (C0 := armas_submatrix_unsafe C j i nR nC).
        set (G := fun a b k => Bel m0 (j + a) k *' symu up un m0 A k (i + b)).
        assert (OC0 : mok L C0) by (apply mok_sub; auto; lia).
        assert (InC : forall a, cell C0 a -> cell C a) by (intros a; apply subm_in; auto; lia).
        assert (AC0 : away ch C0) by (apply away_sub; auto; lia).
        assert (chgC : forall m m', outside3 C0 Av Bv m m' -> outside3 C Av Bv m m').
        { intros x x' Hx z Hz1 Hz2 Hz3. apply Hx; auto. }
        wbind. apply scale_all_wp; try apply OC0; auto. intros m1 V1 O1.
        assert (O1' : outside3 C0 Av Bv m m1) by (eapply out3_oc; [exact O1|]; auto).
        assert (O01 : outside3 C Av Bv m0 m1) by (eapply out3_trans; [exact O0|apply chgC; exact O1']).
        assert (EB : forall x k b, outside3 C Av Bv m0 x -> 0 <= k < rows C -> 0 <= b < N -> Bel x k b = Bel m0 k b).
        { intros x k b Hx Hk Hb. unfold Bel. destruct AB. revert RB CB. destruct tb; intros; eapply out3_elt; eauto; split; lia. }
        wbind.
        apply part_wp with (P := i) (F := G); auto.
        { revert RB CB. destruct tb; intros; apply mok_sub; auto; lia. }
        { apply (tok_blk L up); auto; try (destruct up; lia). intros x y. destruct up; cbn; lia. }
        { revert RB CB. destruct tb; intros; apply disj_sub; auto; lia. }
        { apply disj_sub; auto; destruct up; lia. }
        { revert RB CB. destruct tb; intros; apply away_sub; auto; lia. }
        { apply away_sub; auto; destruct up; lia. }
        { unfold shapeA. rewrite F1a. destruct tb; split; reflexivity. }
        { unfold shapeB. rewrite F1b. destruct up; split; reflexivity. }
        { intros a b k (Ha & Hb) Hk. cbn in Ha, Hb. unfold opA, opB, absf, G. rewrite F1a, F1b, F1c.
          rewrite <- (symu_out m0 m1) by (auto; lia).
          rewrite <- (EB m1 (j + a) k) by (auto; lia).
          rewrite (proj1 (symu_off up un m1 A k (i + b) ltac:(lia))). unfold Bel.
          f_equal; [destruct tb|destruct up]; cbn [negb]; rewrite subm_elt; f_equal; lia. }
        intros m2 V2 O2.
        assert (O02 : outside3 C Av Bv m0 m2).
        { eapply out3_trans; [exact O0|]. apply chgC. eapply out3_trans; [exact O1'|exact O2]. }
        wbind. apply diag_wp with (n := nC) (q := nR); auto; try lia.
        { apply tok_sub; auto; lia. }
        { revert RB CB. destruct tb; intros; apply mok_sub; auto; lia. }
        { apply disj_sub; auto; lia. }
        { revert RB CB. destruct tb; intros; apply disj_sub; auto; lia. }
        { apply away_sub; auto; lia. }
        { revert RB CB. destruct tb; intros; apply away_sub; auto; lia. }
        { fold right. rewrite Hr. reflexivity. }
        { fold right. rewrite Hr. reflexivity. }
        { fold right tb. rewrite Hr. destruct tb; reflexivity. }
        { fold right tb. rewrite Hr. destruct tb; reflexivity. }
        fold right tb up un. rewrite Hr. intros m3 V3 O3.
        assert (O03 : outside3 C Av Bv m0 m3) by (eapply out3_trans; [exact O02|apply chgC; exact O3]).
        apply part_wp with (P := N - i - nC) (F := fun a b k => G a b (i + nC + k)); auto.
        { revert RB CB. destruct tb; intros; apply mok_sub; auto; lia. }
        { apply (tok_blk L up); auto; try (destruct up; lia). intros x y. destruct up; cbn; lia. }
        { revert RB CB. destruct tb; intros; apply disj_sub; auto; lia. }
        { apply disj_sub; auto; destruct up; lia. }
        { revert RB CB. destruct tb; intros; apply away_sub; auto; lia. }
        { apply away_sub; auto; destruct up; lia. }
        { unfold shapeA. rewrite F2a. revert RB CB. destruct tb; intros; split; cbn; lia. }
        { unfold shapeB. rewrite F2b. destruct up; split; cbn; lia. }
        { intros a b k (Ha & Hb) Hk. cbn in Ha, Hb. unfold opA, opB, absf, G. rewrite F2a, F2b, F2c.
          rewrite <- (symu_out m0 m3) by (auto; lia).
          rewrite <- (EB m3 (j + a) (i + nC + k)) by (auto; lia).
          rewrite (proj2 (symu_off up un m3 A (i + b) (i + nC + k) ltac:(lia))). unfold Bel.
          f_equal; [destruct tb|destruct up]; rewrite subm_elt; f_equal; lia. }
        intros m4 V4 O4. apply HQ.
        - intros a b Ha Hb. assert (Hp : pos C0 a b) by (split; cbn; lia).
          assert (EC : forall x : Z -> T, elt x C (j + a) (i + b) = elt x C0 a b) by (intros; unfold C0; rewrite subm_elt; reflexivity).
          rewrite !EC, V4, V3, V2, V1 by auto.
          change (vsum K N (fun k => Bel m0 (j + a) k *' symu up un m0 A k (i + b))) with (vsum K N (G a b)).
          rewrite (vsum3 N i nC (G a b)) by lia.
          rewrite (vsum_ext K nC _ (fun k => G a b (i + k))); [ring|].
          intros k Hk. rewrite symu_sub. unfold G. rewrite (symu_out m0 m2) by (auto; lia).
          rewrite <- (EB m2 (j + a) (i + k)) by (auto; lia). unfold Bel. destruct tb; rewrite subm_elt; reflexivity.
        - eapply out3_trans; [exact O1'|]. eapply out3_trans; [exact O2|]. eapply out3_trans; [exact O3|exact O4].
      Qed.

      (* a change of one block of C leaves the rest of C alone *)
      Lemma blk_other : forall m m' r c nr nc i j, 0 <= r -> 0 <= c -> 0 <= nr -> 0 <= nc -> r + nr <= rows C -> c + nc <= cols C ->
        outside3 (armas_submatrix_unsafe C r c nr nc) Av Bv m m' -> pos C i j -> ~ (r <= i < r + nr /\ c <= j < c + nc) ->
        elt m' C i j = elt m C i j.
      Proof.
        intros m m' r c nr nc i j H1 H2 H3 H4 H5 H6 O Hp Hn. pose proof OC as (WC & _).
        assert (Hc : cell C (elems C + j * step C + i)) by (exists i, j; auto).
        apply O.
        - intros H.
          assert (H' : cell (armas_submatrix_unsafe C r c nr nc) (mad C (i, j))) by (unfold mad; cbn [fst snd]; replace (elems C + (i + j * step C)) with (elems C + j * step C + i) by ring; exact H).
          apply subm_cell in H'; auto; lia.
        - intros H. apply (proj1 AC _ H Hc).
        - intros H. apply (proj2 AC _ H Hc).
      Qed.

      Lemma scale_case : forall (Q : unit -> (Z -> T) -> Prop) (S : Z -> Z -> T), alpha = zero K ->
        (forall m', (forall i j, pos C i j -> elt m' C i j = elt m0 C i j *' beta +' S i j *' alpha) -> outside3 C Av Bv m0 m' -> Q tt m') ->
        wp (when (negb (eqb K beta (one K))) (armas_scale_unsafe K C beta)) L m0 Q.
      Proof.
        intros Q S Ea HQ. subst alpha. pose proof OC as (WC & LC). apply wp_when; intros Eb.
        - apply scale_all_wp; auto. intros m' V O. apply HQ.
          + intros i j Hp. rewrite V by auto. ring.
          + eapply out3_oc; [exact O|]. auto.
        - apply HQ; [|apply out3_refl]. intros i j Hp.
          assert (Eb' : eqb K beta (one K) = true) by (destruct (eqb K beta (one K)); auto; discriminate).
          apply HE in Eb'. rewrite Eb'. ring.
      Qed.

      Lemma left_wp : forall (Q : unit -> (Z -> T) -> Prop), right = false -> rows C = N ->
        rows B = (if tb then cols C else N) -> cols B = (if tb then N else cols C) ->
        Z.min (rows C) (MB ch) <= KB ch -> 0 < rows C -> 0 < cols C ->
        (forall m', (forall i j, pos C i j -> elt m' C i j = elt m0 C i j *' beta +'
             vsum K N (fun k => symu up un m0 A i k *' Bel m0 k j) *' alpha) ->
           outside3 C Av Bv m0 m' -> Q tt m') ->
        wp (armas_mult_symm_left K beta C alpha A B flags 0 ch) L m0 Q.
      Proof.
        intros Q Hr RC RB CB HK Pr Pc HQ. pose proof OK as (B1 & B2 & B3 & _). unfold armas_mult_symm_left.
        apply wp_if; intros Ea.
        { apply HE in Ea. exact (scale_case Q (fun i j => vsum K N (fun k => symu up un m0 A i k *' Bel m0 k j)) Ea HQ). }
        cbv zeta.
        set (mb := if rows C <? MB ch then rows C else MB ch).
        set (nb := if cols C <? NB ch then cols C else NB ch).
        assert (Hmb : 0 < mb <= MB ch /\ mb <= KB ch) by (unfold mb; destruct (rows C <? MB ch) eqn:E; lia).
        assert (Hnb : 0 < nb <= NB ch) by (unfold nb; destruct (cols C <? NB ch) eqn:E; lia).
        clearbody mb nb.
        apply (loops_wp L (rows C) mb (cols C) nb (fun i nI j nJ => symm_left_block K beta C alpha A B flags 0 ch i nI j nJ)
          (fun m i j => elt m C i j) (fun i j => elt m0 C i j *' beta +'
             vsum K N (fun k => symu up un m0 A i k *' Bel m0 k j) *' alpha) (fun m => outside3 C Av Bv m0 m) m0); auto; try lia.
        { apply out3_refl. }
        { intros i nI j nJ m Hi HnI Hle Hj HnJ Hle2 O0 V0.
        apply left_block_wp; auto; try lia. intros m' V O. split; [|split].
        - eapply out3_trans; [exact O0|]. intros z Hz1 Hz2 Hz3. apply O; auto. intros Hz. apply Hz1. revert Hz. apply subm_in; auto; try apply OC; lia.
        - intros x y Hx Hy. replace x with (i + (x - i)) by lia. replace y with (j + (y - j)) by lia.
          rewrite V, V0 by lia. reflexivity.
        - intros x y Hx Hy Hn. apply (blk_other m m' i j nI nJ); [lia..|exact O|split; lia|exact Hn]. }
        intros m' O V. apply HQ; auto. intros i j (Hi & Hj). apply V; auto.
      Qed.

      Lemma right_wp : forall (Q : unit -> (Z -> T) -> Prop), right = true -> cols C = N ->
        rows B = (if tb then N else rows C) -> cols B = (if tb then rows C else N) ->
        Z.min (cols C) (NB ch) <= KB ch -> Z.min (cols C) (NB ch) <= MB ch -> Z.min (rows C) (MB ch) <= NB ch -> 0 < rows C -> 0 < cols C ->
        (forall m', (forall i j, pos C i j -> elt m' C i j = elt m0 C i j *' beta +'
             vsum K N (fun k => Bel m0 i k *' symu up un m0 A k j) *' alpha) ->
           outside3 C Av Bv m0 m' -> Q tt m') ->
        wp (armas_mult_symm_right K beta C alpha A B flags 0 ch) L m0 Q.
      Proof.
        intros Q Hr RC RB CB HK HM HN' Pr Pc HQ. pose proof OK as (B1 & B2 & B3 & _). unfold armas_mult_symm_right.
        apply wp_if; intros Ea.
        { apply HE in Ea. exact (scale_case Q (fun i j => vsum K N (fun k => Bel m0 i k *' symu up un m0 A k j)) Ea HQ). }
        cbv zeta.
        set (mb := if rows C <? MB ch then rows C else MB ch).
        set (nb := if cols C <? NB ch then cols C else NB ch).
        assert (Hmb : 0 < mb <= MB ch /\ mb <= NB ch) by (unfold mb; destruct (rows C <? MB ch) eqn:E; lia).
        assert (Hnb : 0 < nb <= NB ch /\ nb <= MB ch /\ nb <= KB ch) by (unfold nb; destruct (cols C <? NB ch) eqn:E; lia).
        clearbody mb nb.
        apply (loops_wp L (cols C) nb (rows C) mb (fun i nI j nJ => symm_right_block K beta C alpha A B flags 0 ch i nI j nJ)
          (fun m i j => elt m C j i) (fun i j => elt m0 C j i *' beta +'
             vsum K N (fun k => Bel m0 j k *' symu up un m0 A k i) *' alpha) (fun m => outside3 C Av Bv m0 m) m0); auto; try lia.
        { apply out3_refl. }
        { intros i nI j nJ m Hi HnI Hle Hj HnJ Hle2 O0 V0.
          apply right_block_wp; auto; try lia. intros m' V O. split; [|split].
          - eapply out3_trans; [exact O0|]. intros z Hz1 Hz2 Hz3. apply O; auto. intros Hz. apply Hz1. revert Hz. apply subm_in; auto; try apply OC; lia.
          - intros x y Hx Hy. replace x with (i + (x - i)) by lia. replace y with (j + (y - j)) by lia.
            rewrite V, V0 by lia. reflexivity.
          - intros x y Hx Hy Hn. apply (blk_other m m' j i nJ nI); [lia..|exact O|split; lia|intros (Hz1 & Hz2); apply Hn; auto]. }
        intros m' O V. apply HQ; auto. intros i j (Hi & Hj). apply V; auto.
      Qed.
    End Main.
  End Blk.
End S.
