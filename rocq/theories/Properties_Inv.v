(* Properties_Inv.v: the inverse of a triangular matrix (C91). *)
From Coq Require Import ZArith Lia Bool List ZifyBool Ring Field QArith Qcanon.
From Verif Require Import Mem MView SpecView PView PSub Hoare MFlags MBase PUpd MNum SpecNum PSum PBlas2 PFrame SpecTrm MGemm PGemm MTrsm PTrsm
  MLap PLap MInv PInvM PInv PInv2 PInv3 Inst Properties_Gemm Properties_Trsm Properties_Copy Properties_Lu.
Local Open Scope Z_scope.
Local Open Scope prog_scope.
Ltac lia := nobool; zlia.

Section S.
  Context {T : Type} (K : num T).
  (* the triangle of A in m' times the triangle of A in m is the identity, in both orders *)
  Definition inverse_of (up : bool) (A : view) (m m' : Z -> T) : Prop := forall i j, pos A i j ->
    vsum K (cols A) (fun k => mul K (optri K up false false m' A i k) (optri K up false false m A k j)) = (if i =? j then one K else zero K) /\
    vsum K (cols A) (fun k => mul K (optri K up false false m A i k) (optri K up false false m' A k j)) = (if i =? j then one K else zero K).

  (* flags that name at most one triangle and no other operation *)
  Definition inv_flags (flags : Z) : Prop :=
    has flags ARMAS_UPPER && has flags ARMAS_LOWER = false /\
    has flags ARMAS_RIGHT = false /\ has flags ARMAS_LEFT = false /\ has flags ARMAS_TRANSA = false /\ plain_flags flags.
End S.

Section I.
  Context (T : Type) (K : num T) (HF : is_field K) (HE : eqb_ok K).
  Let HR : is_ring K := Field_theory.F_R HF.
  Variables (E : lenv) (L : Z -> bool) (cb : cbuf) (A : view).

  Lemma inv_ist : forall flags ce m, env_ok E L cb A -> wf A -> allocated L A -> rows A = cols A -> 0 <= e_lb E -> inv_flags flags ->
    (has flags ARMAS_UNIT = true -> forall i, 0 <= i < cols A -> elt m A i i = one K) ->
    has (e_opt E) ARMAS_ONAIVE = true \/ e_lb E < e_b2 E \/ cols A <= e_lb E ->
    wp (armas_inverse_trm K E A flags ce) L m
      (fun s m' => ist K E cb A (negb (has flags ARMAS_LOWER)) (has flags ARMAS_UNIT) ce m 0 (cols A) s m').
  Proof.
    intros flags ce m EO W AL Sq Hlb (F1 & F2 & F3 & F4 & F5) HU HB. pose proof W as (W1 & W2 & W3).
    unfold armas_inverse_trm. rewrite Sq, Z.eqb_refl. cbn [negb].
    destruct (Z.eqb_spec (cols A) 0) as [Z0|Z0].
    { apply wp_ret. rewrite Z0. apply ist_0. exact HU. }
    assert (X : forall up, has flags ARMAS_LOWER = negb up ->
      wp (if (e_lb E =? 0) || (cols A <=? e_lb E) then unblk K E up A flags ce else blk K E up A flags (e_lb E) ce) L m
      (fun s m' => ist K E cb A up (has flags ARMAS_UNIT) ce m 0 (cols A) s m')).
    { intros up Hu. destruct ((e_lb E =? 0) || (cols A <=? e_lb E)) eqn:X.
      - apply (unblk_wp K HF HE E L cb); auto. split; auto.
      - apply orb_false_iff in X. destruct X as (X1 & X2). apply Z.eqb_neq in X1. apply Z.leb_gt in X2.
        apply (blk_wp K HF HE E L cb A EO (conj W AL)); auto; try lia.
        + destruct up; [exact Hu|]. rewrite Hu in F1. rewrite andb_true_r in F1. exact F1.
        + destruct HB as [H|[H|H]]; auto. lia. }
    destruct (has flags ARMAS_LOWER) eqn:EL; cbn [negb].
    - exact (X false eq_refl).
    - exact (X true eq_refl).
  Qed.

  (* the inverse replaces the triangle; the rest of A and all other memory stay *)
  Theorem C91_inverse_trm_partial : forall flags ce m, env_ok E L cb A -> wf A -> allocated L A -> rows A = cols A -> 0 <= e_lb E -> inv_flags flags ->
    (has flags ARMAS_UNIT = true -> forall i, 0 <= i < cols A -> elt m A i i = one K) ->
    has (e_opt E) ARMAS_ONAIVE = true \/ e_lb E < e_b2 E \/ cols A <= e_lb E ->
    (forall i, 0 <= i < cols A -> elt m A i i <> zero K) ->
    exists m', armas_inverse_trm K E A flags ce L m = Some ((0, ce), m') /\
      inverse_of K (negb (has flags ARMAS_LOWER)) A m m' /\
      (forall i j, pos A i j -> ~ intri (negb (has flags ARMAS_LOWER)) i j -> elt m' A i j = elt m A i j) /\
      (forall a, ~ cell A a -> ~ inbuf cb (e_p E) a -> m' a = m a).
  Proof.
    intros flags ce m EO W AL Sq Hlb HFl HU HB NZ. pose proof W as (W1 & W2 & W3).
    destruct (inv_ist flags ce m EO W AL Sq Hlb HFl HU HB) as (s & m' & R & (J1 & J2 & J3 & J4 & J5)). set (up := negb (has flags ARMAS_LOWER)) in *.
    assert (s = (0, ce)) as ->.
    { destruct J5 as [(-> & _)|(_ & i & Hi & X)]; [reflexivity|]. exfalso. apply (NZ i); [lia|exact X]. }
    exists m'. split; [exact R|]. split; [|split; [|exact J3]].
    - assert (I1 : inv_on K up (cols A) 0 (cols A) (elt m' A) (elt m A)) by (apply J1; intros i Hi; apply NZ; lia).
      assert (I2 := inv_right K HF up (cols A) (elt m A) (elt m' A) ltac:(lia) I1).
      intros i j (Hi & Hj). rewrite Sq in Hi. specialize (I1 i j ltac:(lia) ltac:(lia)). specialize (I2 i j ltac:(lia) ltac:(lia)). unfold dlt in I1, I2. split.
      + rewrite <- I1. apply vsum_ext. intros q Hq. rewrite !(optri_tr K) by discriminate. reflexivity.
      + rewrite <- I2. apply vsum_ext. intros q Hq. rewrite !(optri_tr K) by discriminate. reflexivity.
    - intros i j Hp Hn. apply J2; auto. intros (X & _). apply Hn. unfold inT, intri in *. clear - X. destruct up; Lia.lia.
  Qed.

  (* a zero on the diagonal is reported, wherever it is *)
  Theorem C91_singular : forall flags ce m, env_ok E L cb A -> wf A -> allocated L A -> rows A = cols A -> 0 <= e_lb E -> inv_flags flags ->
    (has flags ARMAS_UNIT = true -> forall i, 0 <= i < cols A -> elt m A i i = one K) ->
    has (e_opt E) ARMAS_ONAIVE = true \/ e_lb E < e_b2 E \/ cols A <= e_lb E ->
    (exists i, 0 <= i < cols A /\ elt m A i i = zero K) ->
    exists m', armas_inverse_trm K E A flags ce L m = Some ((-1, ARMAS_ESINGULAR), m') /\
      (forall i j, pos A i j -> ~ intri (negb (has flags ARMAS_LOWER)) i j -> elt m' A i j = elt m A i j) /\
      (forall a, ~ cell A a -> ~ inbuf cb (e_p E) a -> m' a = m a).
  Proof.
    intros flags ce m EO W AL Sq Hlb HFl HU HB (i0 & Hi0 & Z0).
    destruct (inv_ist flags ce m EO W AL Sq Hlb HFl HU HB) as (s & m' & R & (J1 & J2 & J3 & J4 & J5)). set (up := negb (has flags ARMAS_LOWER)) in *.
    assert (s = (-1, ARMAS_ESINGULAR)) as ->.
    { destruct J5 as [(_ & NZ)|(-> & _)]; [|reflexivity]. exfalso. apply (NZ i0); [lia|exact Z0]. }
    exists m'. split; [exact R|]. split; [|exact J3].
    intros i j Hp Hn. apply J2; auto. intros (X & _). apply Hn. unfold inT, intri in *. clear - X. destruct up; Lia.lia.
  Qed.

  Theorem C91_not_square : forall flags ce m, rows A <> cols A ->
    armas_inverse_trm K E A flags ce L m = Some ((-1, ARMAS_ESIZE), m).
  Proof. intros flags ce m H. unfold armas_inverse_trm. apply Z.eqb_neq in H. rewrite H. reflexivity. Qed.
End I.
Print Assumptions C91_inverse_trm_partial.
Print Assumptions C91_singular.
Print Assumptions C91_not_square.

(* a 3 by 3 matrix with 2 on the diagonal and ones elsewhere *)
Definition inv_m (a : Z) : Qc := if (a - 200) mod 8 =? 0 then Q2Qc 2 else Q2Qc 1.

(* ARMAS_UNIT: the diagonal of A should not be read, but it scales the columns of the result.
   tri_unit is the unit triangle. *)
Theorem C91_unit_refuted : exists E L cb A m m', env_ok E L cb A /\ wf A /\ allocated L A /\ rows A = cols A /\ e_lb E < e_b2 E /\
  armas_inverse_trm Qcnum E A (Z.lor ARMAS_UPPER ARMAS_UNIT) 0 L m = Some ((0, 0), m') /\
  exists i j, pos A i j /\
    vsum Qcnum (cols A) (fun k => mul Qcnum (optri Qcnum true true false m' A i k) (optri Qcnum true true false m A k j)) <>
      (if i =? j then one Qcnum else zero Qcnum).
Proof.
  destruct (lu_env 64 3 3) as (H1 & H2 & H3); try Lia.lia.
  exists (lu_E 64), cp_L, ge_cb, (lu_A 3 3), inv_m.
  assert (W : match armas_inverse_trm Qcnum (lu_E 64) (lu_A 3 3) (Z.lor ARMAS_UPPER ARMAS_UNIT) 0 cp_L inv_m with
    | Some (s, m') => s = (0, 0) /\ vsum Qcnum 3 (fun k => mul Qcnum (optri Qcnum true true false m' (lu_A 3 3) 0 k) (optri Qcnum true true false inv_m (lu_A 3 3) k 1)) <> zero Qcnum
    | None => False end) by (vm_compute; split; [reflexivity|discriminate]).
  destruct (armas_inverse_trm _ _ _ _ _ _ _) as [[s m']|] eqn:R; [|contradiction]. destruct W as (-> & W).
  exists m'. do 5 (split; [first [assumption|cbn; Lia.lia]|]). split; [reflexivity|]. exists 0, 1. split; [split; cbn; Lia.lia|]. exact W.
Qed.
Print Assumptions C91_unit_refuted.

(* blocks not smaller than the limit of the recursive solver, with the recursive option *)
Definition inv_E : lenv := mklenv 20 1024 2 ARMAS_ORECURSIVE (Some ge_cb) 64 64 160 8 3.
Theorem C91_recursive_refuted : exists E L cb A m m', env_ok E L cb A /\ wf A /\ allocated L A /\ rows A = cols A /\ 0 < e_lb E /\
  (forall i, 0 <= i < cols A -> elt m A i i <> zero Qcnum) /\
  armas_inverse_trm Qcnum E A ARMAS_UPPER 0 L m = Some ((0, 0), m') /\ ~ inverse_of Qcnum true A m m'.
Proof.
  destruct (lu_env 64 6 6) as (H1 & H2 & H3); try Lia.lia.
  exists inv_E, cp_L, ge_cb, (lu_A 6 6), inv_m.
  assert (W : match armas_inverse_trm Qcnum inv_E (lu_A 6 6) ARMAS_UPPER 0 cp_L inv_m with
    | Some (s, m') => s = (0, 0) /\
       forallb (fun i => forallb (fun j => eqb Qcnum (vsum Qcnum 6 (fun k => mul Qcnum (optri Qcnum true false false m' (lu_A 6 6) i k) (optri Qcnum true false false inv_m (lu_A 6 6) k j)))
          (if i =? j then one Qcnum else zero Qcnum)) (0::1::2::3::4::5::nil)) (0::1::2::3::4::5::nil) = false
    | None => False end) by (vm_compute; auto).
  destruct (armas_inverse_trm _ _ _ _ _ _ _) as [[s m']|] eqn:R; [|contradiction]. destruct W as (-> & W).
  exists m'. split; [destruct H1 as (X1 & X2 & X3); split; [exact X1|]; split; [cbn; Lia.lia|exact X3]|]. do 4 (split; [first [assumption|reflexivity]|]). split; [|split; [reflexivity|]].
  - intros i Hi. cbn [cols lu_A] in Hi. unfold elt, inv_m, lu_A. cbn [elems step]. replace ((200 + i * 7 + i - 200)) with (i * 8) by Lia.lia.
    rewrite Z.mod_mul by Lia.lia. discriminate.
  - intros H. apply Bool.diff_false_true. rewrite <- W. apply forallb_forall. intros i Hi. apply forallb_forall. intros j Hj. apply Qc_eqb.
    apply (H i j). split; cbn [rows cols lu_A]; cbn [In] in *; Lia.lia.
Qed.
Print Assumptions C91_recursive_refuted.

(* blocked and unblocked, upper and lower *)
Example C91_nonvacuous : forall lb flags, lb = 2 \/ lb = 64 -> flags = ARMAS_UPPER \/ flags = ARMAS_LOWER ->
  exists m', armas_inverse_trm Qcnum (lu_E lb) (lu_A 5 5) flags 0 cp_L inv_m = Some ((0, 0), m') /\
    inverse_of Qcnum (negb (has flags ARMAS_LOWER)) (lu_A 5 5) inv_m m' /\
    this (elt m' (lu_A 5 5) (if has flags ARMAS_LOWER then 1 else 0) (if has flags ARMAS_LOWER then 0 else 1)) = (-1 # 4)%Q.
Proof.
  intros lb flags Hlb Hf. destruct (lu_env lb 5 5) as (H1 & H2 & H3); try Lia.lia.
  destruct (C91_inverse_trm_partial Qc Qcnum Qc_field Qc_eqb (lu_E lb) cp_L ge_cb (lu_A 5 5) flags 0 inv_m) as (m' & R & I & _); auto.
  - destruct Hlb; subst; cbn; Lia.lia.
  - destruct Hf; subst; repeat split.
  - destruct Hf; subst; discriminate.
  - right. left. destruct Hlb; subst; reflexivity.
  - intros i Hi. cbn [cols lu_A] in Hi. unfold elt, inv_m, lu_A. cbn [elems step]. replace ((200 + i * 7 + i - 200)) with (i * 8) by Lia.lia.
    rewrite Z.mod_mul by Lia.lia. discriminate.
  - exists m'. split; [exact R|]. split; [exact I|].
    assert (W : match armas_inverse_trm Qcnum (lu_E lb) (lu_A 5 5) flags 0 cp_L inv_m with
      | Some (_, m') => this (elt m' (lu_A 5 5) (if has flags ARMAS_LOWER then 1 else 0) (if has flags ARMAS_LOWER then 0 else 1)) = (-1 # 4)%Q
      | None => False end) by (destruct Hlb, Hf; subst; vm_compute; reflexivity).
    rewrite R in W. exact W.
Qed.
