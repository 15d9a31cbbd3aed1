(* Properties_Sparse.v: C35 building a matrix by appending, C36 format conversion, C37
   transposition, C38 sorting, C59 copies, C60 expanding to a dense matrix. *)
From Coq Require Import ZArith List Bool Lia Sorting.Permutation.
From Verif Require Import Mem MView SpecView PView MNum SpecNum Hoare MFlags MSparse SpecSparse PFrame PSum
  PSparse PSpsort PSpconv PSpops Inst.
Import ListNotations.
Local Open Scope Z_scope.
Local Open Scope prog_scope.
Ltac lia := first [zlia | Lia.lia].

(* ------------------------------------------------------------------ C35 *)

(* a coordinate list with its counters in order *)
Definition coo_ready {T} (A : sparse T) : Prop :=
  sp_kind A = COO /\ 0 <= sp_nnz A <= sp_size A /\ alen (sp_ep A) = sp_size A.

(* one append: it succeeds and adds the element behind the others, or the memory could not
   be had and the matrix is as before *)
Theorem C35_append : forall T (K : num T) sz mem_ok L m (A : sparse T) i j e,
  coo_ready A ->
  exists status A', armassp_append K sz mem_ok A i j e L m = Some ((status, A'), m) /\
    (status = 0 /\ coo_ready A' /\ entries A' = entries A ++ [(i, j, e)] /\ sp_nnz A' = sp_nnz A + 1 /\
       sp_rows A' = sp_rows A /\ sp_cols A' = sp_cols A \/
     status = -1 /\ A' = A /\ mem_ok ((sp_size A + 64) * (sz + 8)) = false) /\
    (sp_nnz A < sp_size A -> status = 0).
Proof.
  intros T K sz mem_ok L m A i j e (Hk & Hn & Hl). unfold armassp_append. rewrite Hk.
  assert (W : forall B : sparse T, sp_kind B = COO -> 0 <= sp_nnz B < sp_size B -> alen (sp_ep B) = sp_size B ->
    exists B', (ep <- awrite (sp_ep B) (sp_nnz B) (mkcoo e i j) ;; ret (0, sp_with_coo B ep (sp_nnz B + 1) (sp_size B))) L m = Some ((0, B'), m) /\
      coo_ready B' /\ entries B' = entries B ++ [(i, j, e)] /\ sp_nnz B' = sp_nnz B + 1 /\
      sp_rows B' = sp_rows B /\ sp_cols B' = sp_cols B).
  { intros B HkB HnB HlB. rewrite !run_bind. unfold awrite. replace ((0 <=? sp_nnz B) && (sp_nnz B <? alen (sp_ep B))) with true by lia.
    eexists. split; [reflexivity|]. split; [|split; [|auto]].
    - unfold coo_ready. cbn. repeat split; auto; lia.
    - unfold entries. cbn. rewrite HkB. rewrite zr_snoc by lia. rewrite map_app. f_equal.
      + apply map_ext_zr. intros x Hx. cbn. replace (x =? sp_nnz B) with false by lia. reflexivity.
      + cbn. rewrite Z.eqb_refl. reflexivity. }
  destruct (sp_nnz A =? sp_size A) eqn:Ef.
  - unfold armassp_resize. rewrite Hk. destruct (mem_ok ((sp_size A + 64) * (sz + 8))) eqn:Em; cbn [negb].
    + replace ((sp_nnz A <=? sp_size A + 64) && (sp_nnz A <=? alen (sp_ep A))) with true by lia.
      set (A1 := sp_with_coo A (mkarr (sp_size A + 64) (fun k => if k <? sp_nnz A then aget (sp_ep A) k else coo0 K)) (sp_nnz A) (sp_size A + 64)).
      destruct (W A1) as (B' & R & W1 & W2 & W3 & W4 & W5); unfold A1; cbn; auto; try lia.
      exists 0, B'. split; [exact R|]. split; [|auto]. left. split; [auto|]. split; [auto|].
      split; [|auto]. rewrite W2. f_equal. unfold entries. cbn. rewrite Hk. apply map_ext_zr.
      intros x Hx. replace (x <? sp_nnz A) with true by lia. reflexivity.
    + exists (-1), A. split; [reflexivity|]. split; [right; auto|]. lia.
  - destruct (W A Hk ltac:(lia) Hl) as (B' & R & W'). exists 0, B'. split; [exact R|]. split; [|auto]. left. tauto.
Qed.
Print Assumptions C35_append.

(* a sequence of appends, with the status of each *)
Fixpoint appends {T} (K : num T) sz mem_ok (A : sparse T) (l : list (Z * Z * T)) : M T (list Z * sparse T) :=
  match l with
  | [] => ret ([], A)
  | e :: l =>
      r <- armassp_append K sz mem_ok A (fst (fst e)) (snd (fst e)) (snd e) ;;
      rest <- appends K sz mem_ok (snd r) l ;;
      ret (fst r :: fst rest, snd rest)
  end.

(* the elements whose append returned zero *)
Fixpoint accepted {E} (st : list Z) (l : list E) : list E :=
  match st, l with
  | s :: st, e :: l => if s =? 0 then e :: accepted st l else accepted st l
  | _, _ => []
  end.

(* whatever allocations fail, the matrix holds the earlier elements and the successfully
   appended ones, in order and at full value *)
Theorem C35_append_sequence : forall T (K : num T) sz mem_ok L m l (A : sparse T),
  coo_ready A ->
  exists st A', appends K sz mem_ok A l L m = Some ((st, A'), m) /\ length st = length l /\
    coo_ready A' /\ entries A' = entries A ++ accepted st l /\
    sp_nnz A' = sp_nnz A + Z.of_nat (length (accepted st l)) /\
    sp_rows A' = sp_rows A /\ sp_cols A' = sp_cols A /\
    (forall s, In s st -> s = 0 \/ s = -1) /\
    ((forall bytes, mem_ok bytes = true) -> accepted st l = l).
Proof.
  intros T K sz mem_ok L m l. induction l as [|[[i j] e] l IH]; intros A HA; cbn [appends].
  - exists [], A. cbn [length accepted]. rewrite app_nil_r. split; [reflexivity|]. split; [auto|]. split; [auto|]. split; [auto|].
    split; [lia|]. split; [auto|]. split; [auto|]. split; [intros s []|auto].
  - destruct (C35_append T K sz mem_ok L m A i j e HA) as (s & A1 & R & H & _). cbn [fst snd].
    assert (HA1 : coo_ready A1 /\ sp_rows A1 = sp_rows A /\ sp_cols A1 = sp_cols A).
    { destruct H as [H|H]; [tauto|]. destruct H as (_ & -> & _). auto. }
    destruct (IH A1 (proj1 HA1)) as (st & A2 & R2 & I1 & I2 & I3 & I4 & I5 & I6 & I7 & I8).
    exists (s :: st), A2. split.
    { rewrite run_bind at 1. rewrite R. cbn [snd]. rewrite !run_bind. rewrite R2. reflexivity. }
    split; [cbn; lia|]. split; [auto|]. cbn [accepted].
    destruct H as [(-> & _ & H1 & H2 & _)|(-> & H1 & H2)].
    + change (0 =? 0) with true. split; [rewrite I3, H1, <- app_assoc; reflexivity|].
      split; [cbn [length]; lia|]. split; [lia|].
      split; [lia|]. split; [intros s [<-|Hs]; auto|]. intros Hm. rewrite I8 by auto. reflexivity.
    + change (-1 =? 0) with false. subst A1. split; [auto|]. split; [lia|]. split; [auto|]. split; [auto|].
      split; [intros s [<-|Hs]; auto|]. intros Hm. rewrite Hm in H2. discriminate.
Qed.
Print Assumptions C35_append_sequence.

(* from a new matrix: exactly the appended elements, also far beyond the reserved count *)
Theorem C35_append_new : forall T (K : num T) sz mem_ok L m rows cols nnz l,
  0 < rows -> 0 < cols -> 0 < nnz -> (forall bytes, mem_ok bytes = true) ->
  exists A0 st A, armassp_new K sz mem_ok rows cols nnz COO = Some A0 /\
    appends K sz mem_ok A0 l L m = Some ((st, A), m) /\
    (forall s, In s st -> s = 0) /\ entries A = l /\ sp_nnz A = Z.of_nat (length l) /\
    sp_rows A = rows /\ sp_cols A = cols /\
    ((forall e, In e l -> 0 <= fst (fst e) < rows /\ 0 <= snd (fst e) < cols) -> valid A).
Proof.
  intros T K sz mem_ok L m rows cols nnz l Hr Hc Hn Hm.
  eexists. rewrite new_run by (auto; lia).
  set (A0 := armassp_make K sz rows cols nnz COO).
  assert (HA : coo_ready A0) by (unfold coo_ready; cbn; repeat split; auto; lia).
  destruct (C35_append_sequence T K sz mem_ok L m l A0 HA) as (st & A & R & I1 & I2 & I3 & I4 & I5 & I6 & I7 & I8).
  exists st, A. split; [reflexivity|]. split; [exact R|]. rewrite (I8 Hm) in *.
  assert (E0 : entries A0 = []) by (reflexivity).
  rewrite E0 in I3. cbn [app] in I3.
  split.
  - specialize (I8 Hm). clear - I8 I1. revert l I1 I8. induction st as [|s st IH]; intros [|e l] E H; cbn in *; try discriminate; [tauto|].
    destruct (s =? 0) eqn:Es.
    + inversion H as [H1]. intros s' [<-|Hs]; [lia|]. rewrite H1 in *. apply (IH l); auto; lia.
    + exfalso. assert (X : forall (st : list Z) (l : list (Z * Z * T)), (length (accepted st l) <= length l)%nat).
      { clear. induction st as [|s st IH]; intros [|e l]; cbn; try lia. destruct (s =? 0); cbn; specialize (IH l); lia. }
      specialize (X st l). rewrite H in X. cbn in X. lia.
  - split; [exact I3|]. split; [cbn in I4; lia|]. split; [exact I5|]. split; [exact I6|].
    intros Hin. destruct I2 as (V1 & V2 & V3). unfold valid. rewrite V1, I5, I6. cbn.
    split; [lia|]. split; [lia|]. split; [lia|]. split; [auto|]. intros k Hk.
    specialize (Hin (ci (aget (sp_ep A) k), cj (aget (sp_ep A) k), cv (aget (sp_ep A) k))). cbn in Hin. apply Hin.
    rewrite <- I3. unfold entries. rewrite V1. apply in_map_iff. exists k. split; [reflexivity|]. apply zr_in. lia.
Qed.
Print Assumptions C35_append_new.

(* other formats are refused *)
Theorem C35_append_compressed : forall T (K : num T) sz mem_ok L m (A : sparse T) i j e,
  sp_kind A <> COO -> armassp_append K sz mem_ok A i j e L m = Some ((-1, A), m).
Proof. intros T K sz mem_ok L m A i j e H. unfold armassp_append. destruct (sp_kind A); try congruence; reflexivity. Qed.
Print Assumptions C35_append_compressed.

(* a position outside of the matrix is accepted; the result is not a valid matrix *)
Theorem C35_position_unchecked_refuted : forall T (K : num T) sz mem_ok L m rows cols nnz i j e,
  0 < rows -> 0 < cols -> 0 < nnz -> (forall bytes, mem_ok bytes = true) -> rows <= i ->
  exists A0 A, armassp_new K sz mem_ok rows cols nnz COO = Some A0 /\
    armassp_append K sz mem_ok A0 i j e L m = Some ((0, A), m) /\ ~ valid A.
Proof.
  intros T K sz mem_ok L m rows cols nnz i j e Hr Hc Hn Hm Hi. eexists. rewrite new_run by (auto; lia).
  set (A0 := armassp_make K sz rows cols nnz COO).
  assert (HA : coo_ready A0) by (unfold coo_ready; cbn; repeat split; auto; lia).
  destruct (C35_append T K sz mem_ok L m A0 i j e HA) as (s & A & R & H & Hs).
  rewrite (Hs ltac:(cbn; lia)) in *. exists A. split; [reflexivity|]. split; [exact R|].
  destruct H as [(_ & (V1 & V2 & V3) & H1 & H2 & H3 & H4)|(H & _)]; [|lia].
  unfold valid. rewrite V1. intros (_ & _ & _ & _ & V). cbn in H2, H3.
  assert (X : entries A = [(i, j, e)]).
  { rewrite H1. reflexivity. }
  unfold entries in X. rewrite V1, H2 in X. cbn in X. inversion X as [[X1 X2 X3]]. destruct (V 0 ltac:(lia)) as [V4 _]. lia.
Qed.
Print Assumptions C35_position_unchecked_refuted.

(* a matrix created with room for no element is not of the kind asked for and cannot be
   appended to *)
Theorem C35_empty_new_refuted : forall T (K : num T) sz mem_ok L m rows cols i j e,
  exists A0, armassp_new K sz mem_ok rows cols 0 COO = Some A0 /\
    sp_rows A0 = 0 /\ sp_cols A0 = 0 /\ sp_kind A0 = CSC /\
    armassp_append K sz mem_ok A0 i j e L m = Some ((-1, A0), m).
Proof.
  intros T K sz mem_ok L m rows cols i j e. unfold armassp_new, armassp_init. rewrite orb_true_r.
  eexists. split; [reflexivity|]. repeat split; reflexivity.
Qed.
Print Assumptions C35_empty_new_refuted.

(* ------------------------------------------------------------------ C36 *)

(* the converted matrix is valid, of the format asked for, and holds the same elements; the
   indices in a line ascend, strictly when no position is stored twice *)
Theorem C36_convert : forall T (K : num T), is_ring K -> forall sz mem_ok L m (B : sparse T) target,
  valid B -> target <> COO -> sp_kind B <> target ->
  0 < sp_rows B -> 0 < sp_cols B -> 0 < sp_nnz B ->
  mem_ok (armassp_bytes_needed sz (sp_rows B) (sp_cols B) (sp_nnz B) target) = true ->
  exists A, armassp_convert K sz mem_ok B target L m = Some (Some A, m) /\
    valid A /\ sp_kind A = target /\ sp_rows A = sp_rows B /\ sp_cols A = sp_cols B /\
    Permutation (entries A) (entries B) /\
    (forall i j, value K A i j = value K B i j) /\
    ascending A /\ (no_duplicates B -> strictly_ascending A).
Proof.
  intros T K HR sz mem_ok L m B target V Ht Hd Hr Hc Hn Hm.
  assert (X : wp (armassp_convert K sz mem_ok B target) L m (fun r m' => m' = m /\ exists A, r = Some A /\ converted B target A)).
  { apply convert_wp; auto; try lia. intros A' H. split; eauto. }
  destruct X as (r & m' & E & -> & A & -> & (C1 & C2 & C3 & C4 & C5 & C6 & C7)).
  exists A. split; [exact E|]. split; [auto|]. split; [auto|]. split; [auto|]. split; [auto|]. split; [auto|].
  split; [intros; apply (value_perm K HR); auto|]. split; [auto|].
  intros Nd. apply strict_of_nodup; auto; [congruence|]. unfold no_duplicates in *.
  eapply Permutation_NoDup; [|exact Nd]. apply Permutation_map. apply Permutation_sym. exact C6.
Qed.
Print Assumptions C36_convert.

(* two coordinate lists that hold the same elements in any order, none twice, give the same
   matrix *)
Theorem C36_order_independent : forall T (K : num T) sz mem_ok L m (B B' : sparse T) target A A',
  valid B -> valid B' -> sp_kind B = COO -> sp_kind B' = COO -> target <> COO ->
  0 < sp_rows B -> 0 < sp_cols B -> 0 < sp_nnz B -> 0 < sp_nnz B' ->
  sp_rows B = sp_rows B' -> sp_cols B = sp_cols B' ->
  Permutation (entries B) (entries B') -> no_duplicates B ->
  (forall bytes, mem_ok bytes = true) ->
  armassp_convert K sz mem_ok B target L m = Some (Some A, m) ->
  armassp_convert K sz mem_ok B' target L m = Some (Some A', m) ->
  entries A = entries A'.
Proof.
  intros T K sz mem_ok L m B B' target A A' V V' Hk Hk' Ht Hr Hc Hn Hn' Er Ec P Nd Hm R R'.
  assert (X : forall B : sparse T, valid B -> sp_kind B = COO -> 0 < sp_rows B -> 0 < sp_cols B -> 0 < sp_nnz B ->
     wp (armassp_convert K sz mem_ok B target) L m (fun r m' => m' = m /\ exists A, r = Some A /\ converted B target A)).
  { intros. apply convert_wp; auto; try lia; try congruence. intros A1 H'. split; eauto. }
  destruct (X B V Hk Hr Hc Hn) as (r & m' & E & _ & A1 & -> & (C1 & C2 & C3 & C4 & C5 & C6 & C7)).
  destruct (X B' V' Hk' ltac:(lia) ltac:(lia) Hn') as (r' & m'' & E' & _ & A2 & -> & (D1 & D2 & D3 & D4 & D5 & D6 & D7)).
  rewrite R in E. inversion E; subst A1. rewrite R' in E'. inversion E'; subst A2.
  assert (Nd' : forall A1 : sparse T, Permutation (entries A1) (entries B) -> no_duplicates A1).
  { intros A1 P1. unfold no_duplicates. eapply Permutation_NoDup; [apply Permutation_map, Permutation_sym, P1|exact Nd]. }
  assert (P2 : Permutation (entries A') (entries B)) by (etransitivity; [exact D6|apply Permutation_sym, P]).
  apply lentries_unique; auto; try congruence.
  - apply strict_of_nodup; auto; congruence.
  - apply strict_of_nodup; auto; congruence.
  - etransitivity; [exact C6|apply Permutation_sym, P2].
Qed.
Print Assumptions C36_order_independent.

(* conversion to the coordinate format is refused; memory failure gives null *)
Theorem C36_convert_to_coo : forall T (K : num T) sz mem_ok L m (B : sparse T),
  armassp_convert K sz mem_ok B COO L m = Some (None, m).
Proof. reflexivity. Qed.
Print Assumptions C36_convert_to_coo.

(* a matrix without stored elements cannot be converted *)
Theorem C36_empty_refuted : forall T (K : num T) sz mem_ok L m (B : sparse T) target,
  0 < sz -> valid B -> target <> COO -> sp_nnz B = 0 -> 
  armassp_convert K sz mem_ok B target L m = Some (None, m).
Proof.
  intros T K sz mem_ok L m B target Hs V Ht Hn. unfold armassp_convert. rewrite Hn.
  unfold armassp_new, armassp_init. rewrite orb_true_r. unfold armassp_convert_to, armassp_test_alloc. rewrite Hn.
  assert (D : 0 <= sp_rows B /\ 0 <= sp_cols B) by (unfold valid in V; tauto).
  assert (X : forall n, 0 <= n -> (sp_align64 (0 * sz + 4 * (0 + n + 1)) <=? 0) = false).
  { intros n H. unfold sp_align64. apply Z.leb_gt. pose proof (Z.div_le_lower_bound (0 * sz + 4 * (0 + n + 1) + 7) 8 1 ltac:(lia) ltac:(lia)). lia. }
  destruct target; try congruence; unfold armassp_bytes_needed; cbn [sp_nbytes armassp_clear]; rewrite X by lia; reflexivity.
Qed.
Print Assumptions C36_empty_refuted.

(* converting to the format the matrix already has gives a matrix without elements *)
Theorem C36_same_format_refuted : forall T (K : num T) sz mem_ok L m (B : sparse T),
  valid B -> sp_kind B <> COO -> 0 < sp_rows B -> 0 < sp_cols B -> 0 < sp_nnz B ->
  (forall bytes, mem_ok bytes = true) ->
  exists A, armassp_convert K sz mem_ok B (sp_kind B) L m = Some (Some A, m) /\ sp_nnz A = 0 /\ entries A = [].
Proof.
  intros T K sz mem_ok L m B V Hk Hr Hc Hn Hm. unfold armassp_convert. rewrite new_run by (auto; lia).
  unfold armassp_convert_to, armassp_test_alloc, armassp_test_structure, armassp_make.
  assert (X : forall n, flat_map (fun _ : Z => @nil (Z * Z * T)) (zr 0 n) = []).
  { intros n. induction (zr 0 n); auto. }
  destruct (sp_kind B) eqn:KB; try congruence; cbn [sp_nbytes sp_kind alen sp_ptr sp_v]; rewrite Z.leb_refl, !Z.eqb_refl; cbn [negb andb];
    (eexists; split; [reflexivity|]; split; [reflexivity|]; unfold entries, line_of; cbn;
     etransitivity; [|apply X]; apply flat_map_ext_zr; intros; reflexivity).
Qed.
Print Assumptions C36_same_format_refuted.

(* armassp_convert_to with a target that has been used before: the pointer array is not
   cleared, so a second conversion of the same coordinate list into the same matrix fails *)
Definition sp_one : sparse Z :=
  mksparse (noarr 0) (mkarr 2 (fun k => if k =? 0 then mkcoo 5 0 1 else mkcoo 7 1 0)) 2 2 2 (noarr 0) (noarr 0) 0 2 COO 32.
Theorem C36_reuse_target_refuted :
  valid sp_one /\
  exists A, armassp_convert Znum 8 (fun _ => true) sp_one CSC (fun _ => false) (fun _ => 0) = Some (Some A, fun _ => 0) /\
    valid A /\ sp_kind A = CSC /\
    armassp_convert_to 8 (Some A) sp_one CSC (fun _ => false) (fun _ => 0) = None.
Proof.
  assert (V : valid sp_one).
  { unfold valid. cbn. repeat split; try lia; intros; destruct (k =? 0); cbn; lia. }
  split; [exact V|].
  destruct (C36_convert Z Znum Z_ring 8 (fun _ => true) (fun _ => false) (fun _ => 0) sp_one CSC V ltac:(discriminate) ltac:(discriminate)
    eq_refl eq_refl eq_refl eq_refl) as (A & R & V' & Hk & _).
  exists A. split; [exact R|]. split; [exact V'|]. split; [exact Hk|].
  assert (E : match armassp_convert Znum 8 (fun _ => true) sp_one CSC (fun _ => false) (fun _ => 0) with
     | Some (Some A, _) => match armassp_convert_to 8 (Some A) sp_one CSC (fun _ => false) (fun _ => 0) with None => true | _ => false end
     | _ => false end = true) by (vm_compute; reflexivity).
  rewrite R in E. destruct (armassp_convert_to 8 (Some A) sp_one CSC (fun _ => false) (fun _ => 0)); [discriminate|reflexivity].
Qed.
Print Assumptions C36_reuse_target_refuted.

(* ------------------------------------------------------------------ C37 *)

Theorem C37_transpose : forall T (K : num T), is_ring K -> forall sz mem_ok L m (B : sparse T),
  valid B -> sp_kind B <> COO ->
  0 < sp_rows B -> 0 < sp_cols B -> 0 < sp_nnz B ->
  (forall bytes, mem_ok bytes = true) ->
  exists A, armassp_transpose K sz mem_ok B L m = Some (Some A, m) /\
    valid A /\ sp_kind A = sp_kind B /\ sp_rows A = sp_cols B /\ sp_cols A = sp_rows B /\
    Permutation (entries A) (map swap_pos (entries B)) /\
    (forall i j, value K A i j = value K B j i) /\
    ascending A /\ (no_duplicates B -> strictly_ascending A).
Proof.
  intros T K HR sz mem_ok L m B V Hk Hr Hc Hn Hm.
  assert (X : wp (armassp_transpose K sz mem_ok B) L m (fun r m' => m' = m /\ exists A, r = Some A /\
    valid A /\ sp_kind A = sp_kind B /\ sp_rows A = sp_cols B /\ sp_cols A = sp_rows B /\
    Permutation (entries A) (map swap_pos (entries B)) /\ ascending A)).
  { apply transpose_wp; auto; try lia. intros A' H1 H2 H3 H4 H5 H6 H7. split; [auto|]. exists A'. repeat (split; auto). }
  destruct X as (r & m' & E & -> & A & -> & C1 & C2 & C3 & C4 & C5 & C6).
  exists A. split; [exact E|]. split; [auto|]. split; [auto|]. split; [auto|]. split; [auto|]. split; [auto|]. split.
  { intros i j. change (value K A i j) with (vsumpos K i j (entries A)). rewrite (vsumpos_perm K HR i j _ _ C5).
    apply vsumpos_swap. }
  split; [auto|]. intros Nd. apply strict_of_nodup; auto; [congruence|]. unfold no_duplicates in *.
  eapply Permutation_NoDup; [apply Permutation_map, Permutation_sym, C5|].
  replace (map fst (map swap_pos (entries B))) with (map (fun x : Z * Z => (snd x, fst x)) (map fst (entries B)))
    by (rewrite !map_map; reflexivity).
  apply FinFun.Injective_map_NoDup; [|exact Nd]. intros [a b] [c d] Hi. cbn in Hi. congruence.
Qed.
Print Assumptions C37_transpose.

(* transposing twice: the same elements; the very same list when the indices were in order *)
Theorem C37_transpose_twice : forall T (K : num T), is_ring K -> forall sz mem_ok L m (B A C : sparse T),
  valid B -> sp_kind B <> COO ->
  0 < sp_rows B -> 0 < sp_cols B -> 0 < sp_nnz B ->
  (forall bytes, mem_ok bytes = true) ->
  armassp_transpose K sz mem_ok B L m = Some (Some A, m) ->
  exists C, armassp_transpose K sz mem_ok A L m = Some (Some C, m) /\
    valid C /\ sp_kind C = sp_kind B /\ sp_rows C = sp_rows B /\ sp_cols C = sp_cols B /\
    Permutation (entries C) (entries B) /\ (forall i j, value K C i j = value K B i j) /\
    (strictly_ascending B -> no_duplicates B -> entries C = entries B).
Proof.
  intros T K HR sz mem_ok L m B A C0 V Hk Hr Hc Hn Hm R.
  destruct (C37_transpose T K HR sz mem_ok L m B V Hk Hr Hc Hn Hm) as (A1 & R1 & V1 & K1 & D1 & D2 & P1 & E1 & A2 & S1).
  rewrite R in R1. inversion R1. subst A1.
  assert (Hn' : 0 < sp_nnz A).
  { assert (X : forall X : sparse T, valid X -> sp_kind X <> COO -> Z.of_nat (length (entries X)) = sp_nnz X).
    { intros X VX KX. rewrite entries_lentries by auto. rewrite <- (lentries_length X VX KX). f_equal. unfold oriented. destruct (sp_kind X); rewrite ?map_length; reflexivity. }
    rewrite <- (X A V1 ltac:(congruence)). rewrite (Permutation_length P1), map_length, (X B V Hk). lia. }
  destruct (C37_transpose T K HR sz mem_ok L m A V1 ltac:(congruence) ltac:(lia) ltac:(lia) Hn' Hm) as (C & R2 & V2 & K2 & D3 & D4 & P2 & E2 & A3 & S2).
  exists C. split; [exact R2|]. split; [auto|]. split; [congruence|]. split; [lia|]. split; [lia|].
  assert (P : Permutation (entries C) (entries B)).
  { etransitivity; [exact P2|]. etransitivity; [apply Permutation_map; exact P1|]. rewrite map_swap_swap. reflexivity. }
  split; [exact P|]. split; [intros; rewrite E2; apply E1|].
  intros SB Nd. apply lentries_unique; auto; try congruence. apply S2. unfold no_duplicates in *.
  eapply Permutation_NoDup; [apply Permutation_map, Permutation_sym, P1|].
  replace (map fst (map swap_pos (entries B))) with (map (fun x : Z * Z => (snd x, fst x)) (map fst (entries B)))
    by (rewrite !map_map; reflexivity).
  apply FinFun.Injective_map_NoDup; [|exact Nd]. intros [a b] [c d] Hi. cbn in Hi. congruence.
Qed.
Print Assumptions C37_transpose_twice.

Theorem C37_empty_refuted : forall T (K : num T) sz mem_ok L m (B : sparse T),
  0 < sz -> valid B -> sp_nnz B = 0 ->
  armassp_transpose K sz mem_ok B L m = Some (None, m).
Proof.
  intros T K sz mem_ok L m B Hs V Hn. pose proof (fun t Ht => C36_empty_refuted T K sz mem_ok L m B t Hs V Ht Hn) as X.
  unfold armassp_convert in X. unfold armassp_transpose, armassp_transpose_to.
  unfold armassp_new, armassp_init in *. rewrite Hn in *. rewrite orb_true_r in *.
  destruct (sp_kind B); [| |reflexivity]; (rewrite !run_bind; rewrite X by congruence; reflexivity).
Qed.
Print Assumptions C37_empty_refuted.

(* ------------------------------------------------------------------ C38 *)

Theorem C38_sort : forall T (K : num T), is_ring K -> forall L m (A : sparse T), valid A -> sp_kind A <> COO ->
  exists A', armassp_sort A L m = Some ((0, A'), m) /\
    valid A' /\ sp_kind A' = sp_kind A /\ sp_rows A' = sp_rows A /\ sp_cols A' = sp_cols A /\ sp_nnz A' = sp_nnz A /\
    sp_ptr A' = sp_ptr A /\ ascending A' /\
    (forall j, 0 <= j < nlines A -> Permutation (line_of A' j) (line_of A j)) /\
    (forall i j, value K A' i j = value K A i j) /\
    (no_duplicates A -> strictly_ascending A').
Proof.
  intros T K HR L m A V Hk.
  assert (X : wp (compressed_sort A) L m (fun A' m' => m' = m /\ valid A' /\ same_head A' A /\ sp_ptr A' = sp_ptr A /\ ascending A' /\
     (forall j, 0 <= j < nlines A -> Permutation (line_of A' j) (line_of A j)))).
  { apply sort_wp; auto. intros. repeat (split; auto). }
  destruct X as (A' & m' & E & -> & V' & (S1 & S2 & S3 & S4) & Sp & Asc & P).
  exists A'. split.
  { unfold armassp_sort. destruct (sp_kind A); try congruence; rewrite !run_bind; rewrite E; reflexivity. }
  assert (K' : sp_kind A' <> COO) by congruence.
  assert (PE : Permutation (entries A') (entries A)).
  { pose proof (valid_cs A V Hk) as (_&_&_&_&_&H6&_). pose proof (valid_cs A' V' K') as (_&_&_&_&_&H6'&_).
    assert (N : nlines A' = nlines A) by (unfold nlines; rewrite S1, S2, S3; reflexivity).
    apply lines_perm; auto; rewrite H6', N; auto. }
  split; [auto|]. split; [auto|]. split; [auto|]. split; [auto|]. split; [auto|]. split; [auto|]. split; [auto|]. split; [auto|].
  split; [intros; apply (value_perm K HR); auto|]. intros Nd. apply strict_of_nodup; auto. unfold no_duplicates in *.
  eapply Permutation_NoDup; [apply Permutation_map, Permutation_sym, PE|exact Nd].
Qed.
Print Assumptions C38_sort.

Theorem C38_sort_coo_refused : forall T L m (A : sparse T), sp_kind A = COO -> armassp_sort A L m = Some ((-1, A), m).
Proof. intros T L m A H. unfold armassp_sort. rewrite H. reflexivity. Qed.
Print Assumptions C38_sort_coo_refused.

(* ------------------------------------------------------------------ C59 *)

(* a copy of a compressed matrix: same structure, same elements in the same order *)
Theorem C59_mkcopy : forall T (K : num T) sz mem_ok L m (B : sparse T),
  valid B -> sp_kind B <> COO -> 0 < sp_rows B -> 0 < sp_cols B -> 0 < sp_nnz B ->
  mem_ok (armassp_bytes_needed sz (sp_rows B) (sp_cols B) (sp_nnz B) (sp_kind B)) = true ->
  exists A, armassp_mkcopy K sz mem_ok B L m = Some (Some A, m) /\
    valid A /\ sp_kind A = sp_kind B /\ sp_rows A = sp_rows B /\ sp_cols A = sp_cols B /\ sp_nnz A = sp_nnz B /\
    (forall j, 0 <= j <= nlines B -> aget (sp_ptr A) j = aget (sp_ptr B) j) /\
    entries A = entries B.
Proof.
  intros T K sz mem_ok L m B V Hk Hr Hc Hn Hm.
  pose proof (valid_cs B V Hk) as (H1&H2&H3&H4&H5&H6&H7&H8&H9&H10&H11&H12&H13).
  set (A0 := armassp_make K sz (sp_rows B) (sp_cols B) (sp_nnz B) (sp_kind B)).
  assert (N0 : alen (sp_ix A0) = sp_nnz B /\ alen (sp_v A0) = sp_nnz B /\ alen (sp_ptr A0) = nlines B + 1 /\
    sp_kind A0 = sp_kind B /\ sp_rows A0 = sp_rows B /\ sp_cols A0 = sp_cols B /\ sp_size A0 = sp_nnz B).
  { unfold A0, armassp_make, nlines. destruct (sp_kind B); try congruence; cbn; repeat split; auto. }
  destruct N0 as (N1 & N2 & N3 & N4 & N5 & N6 & N7).
  assert (X : wp (armassp_mkcopy K sz mem_ok B) L m (fun r m' => m' = m /\ exists v ptr ix,
    r = Some (sp_with_counts (sp_with_arrays A0 v ptr ix) (sp_nnz B) (sp_nptr B) (sp_kind A0)) /\
    alen ix = sp_nnz B /\ alen v = sp_nnz B /\ alen ptr = nlines B + 1 /\
    (forall p, 0 <= p < sp_nnz B -> aget ix p = aget (sp_ix B) p /\ aget v p = aget (sp_v B) p) /\
    (forall j, 0 <= j <= nlines B -> aget ptr j = aget (sp_ptr B) j))).
  { unfold armassp_mkcopy. rewrite new_run by (auto; lia). fold A0. unfold armassp_copy_to.
    replace (sp_nbytes A0 <? armassp_bytes_needed sz (sp_rows B) (sp_cols B) (sp_nnz B) (sp_kind B)) with false.
    2: { unfold A0, armassp_make. destruct (sp_kind B); cbn [sp_nbytes]; lia. }
    assert (Y : wp (st <- for_acc 0 (sp_nnz B) 1 (fun k st =>
                         e <- aread (sp_v B) k ;;
                         v <- awrite (snd st) k e ;;
                         i <- aread (sp_ix B) k ;;
                         ix <- awrite (fst st) k i ;;
                         ret (ix, v)) (sp_ix A0, sp_v A0) ;;
                 ptr <- for_acc 0 (sp_nptr B + 1) 1 (fun k ptr =>
                         p <- aread (sp_ptr B) k ;; awrite ptr k p) (sp_ptr A0) ;;
                 ret (Some (sp_with_counts (sp_with_arrays A0 (snd st) ptr (fst st))
                              (sp_nnz B) (sp_nptr B) (sp_kind A0)))) L m (fun r m' => m' = m /\ exists v ptr ix,
    r = Some (sp_with_counts (sp_with_arrays A0 v ptr ix) (sp_nnz B) (sp_nptr B) (sp_kind A0)) /\
    alen ix = sp_nnz B /\ alen v = sp_nnz B /\ alen ptr = nlines B + 1 /\
    (forall p, 0 <= p < sp_nnz B -> aget ix p = aget (sp_ix B) p /\ aget v p = aget (sp_v B) p) /\
    (forall j, 0 <= j <= nlines B -> aget ptr j = aget (sp_ptr B) j))).
    { wbind. apply wp_for1_acc with (I := fun k st m' => m' = m /\ alen (fst st) = sp_nnz B /\ alen (snd st) = sp_nnz B /\
        forall p, 0 <= p < k -> aget (fst st) p = aget (sp_ix B) p /\ aget (snd st) p = aget (sp_v B) p).
      { cbn [fst snd]. repeat split; auto; lia. }
      { intros k [ix v] m' Hk' (-> & I1 & I2 & I3). cbn [fst snd] in *.
        wbind. apply aread_wp; [lia|]. wbind. apply awrite_wp; [lia|]. wbind. apply aread_wp; [lia|]. wbind. apply awrite_wp; [lia|].
        apply wp_ret. cbn [fst snd]. split; [auto|]. rewrite !aset_len. split; [auto|]. split; [auto|].
        intros p Hp. destruct (Z.eq_dec p k) as [->|Hne]; [rewrite !aset_same; auto|]. rewrite !aset_other by auto. apply I3. lia. }
      intros [ix v] m' (-> & I1 & I2 & I3). cbn [fst snd] in *. rewrite Z.max_r in I3 by lia.
      wbind. apply wp_for1_acc with (I := fun k ptr m' => m' = m /\ alen ptr = nlines B + 1 /\
        forall j, 0 <= j < k -> aget ptr j = aget (sp_ptr B) j).
      { repeat split; auto; lia. }
      { intros k ptr m' Hk' (-> & J1 & J2). wbind. apply aread_wp; [lia|]. apply awrite_wp; [lia|].
        split; [auto|]. rewrite aset_len. split; [auto|]. intros j Hj.
        destruct (Z.eq_dec j k) as [->|Hne]; [rewrite !aset_same; auto|]. rewrite !aset_other by auto. apply J2. lia. }
      intros ptr m' (-> & J1 & J2). apply wp_ret. split; [auto|]. exists v, ptr, ix. split; [reflexivity|].
      split; [auto|]. split; [auto|]. split; [auto|]. split; [auto|]. intros j Hj. apply J2. lia. }
    destruct (sp_kind B); try congruence; exact Y. }
  destruct X as (r & m' & E & -> & v & ptr & ix & -> & I1 & I2 & I3 & I4 & I5).
  eexists. split; [exact E|].
  set (A := sp_with_counts (sp_with_arrays A0 v ptr ix) (sp_nnz B) (sp_nptr B) (sp_kind A0)).
  assert (NA : nlines A = nlines B) by (unfold nlines, A; cbn; rewrite N4, N5, N6; reflexivity).
  assert (WA : linelen A = linelen B) by (unfold linelen, A; cbn; rewrite N4, N5, N6; reflexivity).
  assert (KA : sp_kind A = sp_kind B) by (unfold A; cbn; auto).
  split.
  { apply cs_valid; rewrite ?NA, ?WA, ?KA; auto; unfold A; cbn; rewrite ?N5, ?N6, ?N7; auto; try lia.
    - rewrite I5 by lia. auto.
    - rewrite I5 by lia. auto.
    - intros j Hj. rewrite !I5 by lia. auto.
    - intros p Hp. destruct (I4 p Hp) as [-> _]. auto. }
  split; [auto|]. split; [unfold A; cbn; auto|]. split; [unfold A; cbn; auto|]. split; [reflexivity|]. split; [exact I5|].
  rewrite !entries_lentries by congruence. rewrite KA. f_equal. unfold lentries. apply flat_map_ext_zr. intros j Hj.
  change (sp_nptr A) with (sp_nptr B) in Hj. f_equal. unfold line_of. change (sp_ptr A) with ptr. change (sp_ix A) with ix. change (sp_v A) with v.
  rewrite !I5 by lia. apply map_ext_zr. intros p Hp.
  pose proof (valid_mono B V Hk 0 j ltac:(lia) ltac:(lia)). pose proof (valid_mono B V Hk (j + 1) (nlines B) ltac:(lia) ltac:(lia)).
  destruct (I4 p ltac:(lia)) as [-> ->]. reflexivity.
Qed.
Print Assumptions C59_mkcopy.

(* the copy of a coordinate list has its element count left at zero: it is empty *)
Theorem C59_copy_coo_refuted : forall T (K : num T) sz mem_ok L m (B : sparse T),
  valid B -> sp_kind B = COO -> 0 < sp_rows B -> 0 < sp_cols B -> 0 < sp_nnz B ->
  (forall bytes, mem_ok bytes = true) ->
  exists A, armassp_mkcopy K sz mem_ok B L m = Some (Some A, m) /\ sp_nnz A = 0 /\ entries A = [].
Proof.
  intros T K sz mem_ok L m B V Hk Hr Hc Hn Hm.
  assert (VB : alen (sp_ep B) = sp_size B /\ sp_nnz B <= sp_size B). { unfold valid in V. rewrite Hk in V. split; apply V. }
  unfold armassp_mkcopy. rewrite new_run by (auto; lia). unfold armassp_copy_to. rewrite Hk. cbn [armassp_make sp_nbytes].
  rewrite Z.ltb_irrefl. cbn [sp_ep].
  assert (X : wp (ep <- for_acc 0 (sp_nnz B) 1 (fun k ep => e <- aread (sp_ep B) k ;; awrite ep k e) (mkarr (sp_nnz B) (fun _ => coo0 K)) ;;
     ret (Some (sp_with_coo (armassp_make K sz (sp_rows B) (sp_cols B) (sp_nnz B) COO) ep 0 (sp_nnz B)))) L m
     (fun r m' => m' = m /\ exists ep, r = Some (sp_with_coo (armassp_make K sz (sp_rows B) (sp_cols B) (sp_nnz B) COO) ep 0 (sp_nnz B)))).
  { wbind. apply wp_for1_acc with (I := fun k ep m' => m' = m /\ alen ep = sp_nnz B).
    - split; reflexivity.
    - intros k ep m' Hk' (-> & I1). wbind. apply aread_wp; [lia|]. apply awrite_wp; [lia|]. split; auto.
    - intros ep m' (-> & _). apply wp_ret. split; eauto. }
  destruct X as (r & m' & E & -> & ep & ->). eexists. split; [exact E|]. split; [reflexivity|].
  reflexivity.
Qed.
Print Assumptions C59_copy_coo_refuted.

(* ------------------------------------------------------------------ C60 *)

Lemma set_one_wp : forall T L (m : Z -> T) D i j e (Q : unit -> (Z -> T) -> Prop),
  wf D -> allocated L D -> pos D i j ->
  (forall m', (forall r c, pos D r c -> elt m' D r c = if (r =? i) && (c =? j) then e else elt m D r c) ->
     only_changes D m m' -> Q tt m') ->
  wp (armas_set D i j e) L m Q.
Proof.
  intros T L m D i j e Q W AL P HQ.
  assert (N1 : norm_ix (rows D) i = i) by (unfold norm_ix; unfold pos in P; replace (i <? 0) with false by lia; reflexivity).
  assert (N2 : norm_ix (cols D) j = j) by (unfold norm_ix; unfold pos in P; replace (j <? 0) with false by lia; reflexivity).
  destruct (set_spec T L m D i j e W) as (m' & R & E1 & E2 & E3); rewrite ?N1, ?N2 in *; auto.
  exists tt, m'. split; [exact R|]. apply HQ; auto. intros r c Hp.
  destruct ((r =? i) && (c =? j)) eqn:E.
  - assert (r = i /\ c = j) as [-> ->] by lia. exact E1.
  - apply E2; auto. intros X. inversion X. lia.
Qed.

(* the last of the elements stored for a position, d when there is none *)
Fixpoint last_at {T} (l : list (Z * Z * T)) (i j : Z) (d : T) : T :=
  match l with
  | [] => d
  | e :: l => last_at l i j (if at_pos i j e then snd e else d)
  end.

Lemma last_at_app : forall T (l l' : list (Z * Z * T)) i j d, last_at (l ++ l') i j d = last_at l' i j (last_at l i j d).
Proof. intros T l. induction l as [|e l IH]; intros l' i j d; [reflexivity|]. cbn [app last_at]. apply IH. Qed.

(* the dense matrix after the elements l have been stored into it *)
Definition stored {T} (D : view) (l : list (Z * Z * T)) (m m' : Z -> T) : Prop :=
  (forall i j, pos D i j -> elt m' D i j = last_at l i j (elt m D i j)) /\ only_changes D m m'.

Lemma stored_step : forall T L (m m1 : Z -> T) D l i j e (Q : unit -> (Z -> T) -> Prop),
  wf D -> allocated L D -> pos D i j -> stored D l m m1 ->
  (forall m', stored D (l ++ [(i, j, e)]) m m' -> Q tt m') ->
  wp (armas_set D i j e) L m1 Q.
Proof.
  intros T L m m1 D l i j e Q W AL P (S1 & S2) HQ. apply set_one_wp; auto. intros m' H1 H2. apply HQ. split.
  - intros r c Hp. rewrite H1 by auto. rewrite last_at_app. cbn [last_at]. unfold at_pos. cbn [fst snd].
    rewrite (Z.eqb_sym i r), (Z.eqb_sym j c). destruct ((r =? i) && (c =? j)); auto.
  - intros a Ha. rewrite H2 by auto. apply S2; auto.
Qed.

Lemma todense_run : forall T L (m : Z -> T) D (B : sparse T), wf D -> allocated L D -> valid B ->
  rows D = sp_rows B -> cols D = sp_cols B ->
  exists m', armassp_todense D B L m = Some (0, m') /\ stored D (entries B) m m'.
Proof.
  intros T L m D B W AL V Er Ec.
  assert (X : wp (armassp_todense D B) L m (fun r m' => r = 0 /\ stored D (entries B) m m')).
  { unfold armassp_todense. rewrite Er, Ec, !Z.eqb_refl. cbn [negb orb].
    assert (S0 : stored D [] m m) by (split; [reflexivity|intros a _; reflexivity]).
    destruct (sp_kind B) eqn:KB.
    - pose proof (valid_cs B V ltac:(congruence)) as (H1&H2&H3&H4&H5&H6&H7&H8&H9&H10&H11&H12&H13).
      assert (NB : nlines B = sp_cols B) by (unfold nlines; rewrite KB; reflexivity).
      assert (WB : linelen B = sp_rows B) by (unfold linelen; rewrite KB; reflexivity).
      unfold entries. rewrite KB.
      wbind. apply wp_for1 with (I := fun j m' => stored D (flat_map (fun j => map (fun e => (fst e, j, snd e)) (line_of B j)) (zr 0 j)) m m').
      + rewrite zr_nil by lia. exact S0.
      + intros j m1 Hj Hs. wbind. apply aread_wp; [lia|]. wbind. apply aread_wp; [lia|].
        pose proof (valid_mono B V ltac:(congruence) 0 j ltac:(lia) ltac:(lia)). pose proof (valid_mono B V ltac:(congruence) (j + 1) (nlines B) ltac:(lia) ltac:(lia)).
        pose proof (H12 j ltac:(lia)) as Hm.
        apply wp_for1 with (I := fun p m' => stored D (flat_map (fun j => map (fun e => (fst e, j, snd e)) (line_of B j)) (zr 0 j) ++
           map (fun e => (fst e, j, snd e)) (map (fun p => (aget (sp_ix B) p, aget (sp_v B) p)) (zr (aget (sp_ptr B) j) p))) m m').
        * rewrite (zr_nil (aget (sp_ptr B) j)) by lia. rewrite app_nil_r. exact Hs.
        * intros p m2 Hp Hs2. wbind. apply aread_wp; [lia|]. wbind. apply aread_wp; [lia|].
          pose proof (H13 p ltac:(lia)).
          eapply stored_step; [auto|auto|split; lia|exact Hs2|]. intros m3 H'.
          rewrite zr_snoc by lia. rewrite !map_app, app_assoc. exact H'.
        * intros m2. rewrite Z.max_r by lia. intros H'. rewrite zr_snoc by lia. rewrite flat_map_snoc. exact H'.
      + intros m1 Hs. apply wp_ret. split; [reflexivity|]. rewrite Z.max_r in Hs by lia. exact Hs.
    - pose proof (valid_cs B V ltac:(congruence)) as (H1&H2&H3&H4&H5&H6&H7&H8&H9&H10&H11&H12&H13).
      assert (NB : nlines B = sp_rows B) by (unfold nlines; rewrite KB; reflexivity).
      assert (WB : linelen B = sp_cols B) by (unfold linelen; rewrite KB; reflexivity).
      unfold entries. rewrite KB.
      wbind. apply wp_for1 with (I := fun j m' => stored D (flat_map (fun j => map (fun e => (j, fst e, snd e)) (line_of B j)) (zr 0 j)) m m').
      + rewrite zr_nil by lia. exact S0.
      + intros j m1 Hj Hs. wbind. apply aread_wp; [lia|]. wbind. apply aread_wp; [lia|].
        pose proof (valid_mono B V ltac:(congruence) 0 j ltac:(lia) ltac:(lia)). pose proof (valid_mono B V ltac:(congruence) (j + 1) (nlines B) ltac:(lia) ltac:(lia)).
        pose proof (H12 j ltac:(lia)) as Hm.
        apply wp_for1 with (I := fun p m' => stored D (flat_map (fun j => map (fun e => (j, fst e, snd e)) (line_of B j)) (zr 0 j) ++
           map (fun e => (j, fst e, snd e)) (map (fun p => (aget (sp_ix B) p, aget (sp_v B) p)) (zr (aget (sp_ptr B) j) p))) m m').
        * rewrite (zr_nil (aget (sp_ptr B) j)) by lia. rewrite app_nil_r. exact Hs.
        * intros p m2 Hp Hs2. wbind. apply aread_wp; [lia|]. wbind. apply aread_wp; [lia|].
          pose proof (H13 p ltac:(lia)).
          eapply stored_step; [auto|auto|split; lia|exact Hs2|]. intros m3 H'.
          rewrite zr_snoc by lia. rewrite !map_app, app_assoc. exact H'.
        * intros m2. rewrite Z.max_r by lia. intros H'. rewrite zr_snoc by lia. rewrite flat_map_snoc. exact H'.
      + intros m1 Hs. apply wp_ret. split; [reflexivity|]. rewrite Z.max_r in Hs by lia. exact Hs.
    - unfold valid in V. rewrite KB in V. destruct V as (V1 & V2 & V3 & V4 & V5). unfold entries. rewrite KB.
      wbind. apply wp_for1 with (I := fun k m' => stored D (map (fun k => let e := aget (sp_ep B) k in (ci e, cj e, cv e)) (zr 0 k)) m m').
      + rewrite zr_nil by lia. exact S0.
      + intros k m1 Hk Hs. wbind. apply aread_wp; [lia|]. pose proof (V5 k Hk).
        eapply stored_step; [auto|auto|split; lia|exact Hs|]. intros m2 H'. rewrite zr_snoc by lia. rewrite map_app. exact H'.
      + intros m1 Hs. apply wp_ret. split; [reflexivity|]. rewrite Z.max_r in Hs by lia. exact Hs. }
  destruct X as (r & m' & E & -> & H). eauto.
Qed.

Lemma last_at_none : forall T (l : list (Z * Z * T)) i j d, ~ In (i, j) (map fst l) -> last_at l i j d = d.
Proof.
  intros T l. induction l as [|e l IH]; intros i j d H; [reflexivity|]. cbn [last_at]. cbn [map] in H.
  rewrite IH by (intros X; apply H; right; auto).
  destruct (at_pos i j e) eqn:E; auto. exfalso. apply H. left. unfold at_pos in E. destruct (fst e). cbn in E. f_equal; lia.
Qed.

Lemma last_at_one : forall T (l : list (Z * Z * T)) i j d v, NoDup (map fst l) -> In (i, j, v) l -> last_at l i j d = v.
Proof.
  intros T l. induction l as [|e l IH]; intros i j d v Hn H; [destruct H|]. cbn [map] in Hn. inversion Hn; subst. cbn [last_at].
  destruct H as [->|H].
  - unfold at_pos. cbn [fst snd]. rewrite !Z.eqb_refl. apply last_at_none. auto.
  - apply IH; auto.
Qed.

Lemma last_at_value : forall T (K : num T), is_ring K -> forall (l : list (Z * Z * T)) i j, NoDup (map fst l) ->
  last_at l i j (zero K) = vsumpos K i j l.
Proof.
  intros T K HR l i j. pose (R := HR : ring_theory (zero K) (one K) (add K) (mul K) (sub K) (opp K) eq).
  assert (Z0 : forall l : list (Z * Z * T), ~ In (i, j) (map fst l) -> vsumpos K i j l = zero K).
  { intros l0. induction l0 as [|e l0 IH]; intros H; [reflexivity|]. unfold vsumpos. cbn [fold_right]. fold (vsumpos K i j l0).
    cbn [map] in H. rewrite IH by (intros X; apply H; right; auto).
    destruct (at_pos i j e) eqn:E; auto. exfalso. apply H. left. unfold at_pos in E. destruct (fst e). cbn in E. f_equal; lia. }
  induction l as [|e l IH]; intros Hn; [reflexivity|]. cbn [map] in Hn. inversion Hn; subst.
  cbn [last_at]. unfold vsumpos. cbn [fold_right]. fold (vsumpos K i j l).
  destruct (at_pos i j e) eqn:E; auto.
  assert (Ee : fst e = (i, j)). { unfold at_pos in E. destruct (fst e). cbn in E. f_equal; lia. }
  rewrite Ee in *. rewrite last_at_none by auto. rewrite Z0 by auto.
  rewrite (Radd_comm R), (Radd_0_l R). reflexivity.
Qed.

(* the stored elements reach the dense matrix, every other element keeps its value; so a
   zeroed matrix becomes the dense form of the sparse matrix *)
Theorem C60_todense : forall T (K : num T), is_ring K -> forall L m D (B : sparse T),
  wf D -> allocated L D -> valid B -> rows D = sp_rows B -> cols D = sp_cols B -> no_duplicates B ->
  exists m', armassp_todense D B L m = Some (0, m') /\
    (forall i j v, In (i, j, v) (entries B) -> elt m' D i j = v) /\
    (forall i j, pos D i j -> ~ In (i, j) (map fst (entries B)) -> elt m' D i j = elt m D i j) /\
    ((forall i j, pos D i j -> elt m D i j = zero K) -> forall i j, pos D i j -> elt m' D i j = value K B i j) /\
    only_changes D m m'.
Proof.
  intros T K HR L m D B W AL V Er Ec Nd.
  destruct (todense_run T L m D B W AL V Er Ec) as (m' & R & S1 & S2).
  exists m'. split; [exact R|]. split; [|split; [|split; [|exact S2]]].
  - intros i j v Hin. rewrite S1. { apply last_at_one; auto. }
    assert (KK : forall k, sp_kind B = k -> pos D i j).
    { intros k KB. unfold pos. rewrite Er, Ec. destruct k.
      - assert (Hk : sp_kind B <> COO) by congruence. rewrite entries_lentries in Hin by auto. rewrite KB in Hin. cbn in Hin.
        apply in_map_iff in Hin as (x & E & Hx). apply (lentries_in B V Hk) in Hx.
        unfold nlines, linelen in Hx. rewrite KB in Hx. destruct x as [[a b] c]. cbn in *. inversion E; subst. tauto.
      - assert (Hk : sp_kind B <> COO) by congruence. rewrite entries_lentries in Hin by auto. rewrite KB in Hin. cbn in Hin.
        apply (lentries_in B V Hk) in Hin.
        unfold nlines, linelen in Hin. rewrite KB in Hin. cbn in *. tauto.
      - unfold valid in V. rewrite KB in V. unfold entries in Hin. rewrite KB in Hin.
        apply in_map_iff in Hin as (k & E & Hk). apply zr_in in Hk. inversion E; subst. apply V. auto. }
    eapply KK; reflexivity.
  - intros i j Hp Hn. rewrite S1 by auto. apply last_at_none. auto.
  - intros Hz i j Hp. rewrite S1, Hz by auto. apply (last_at_value T K HR); auto.
Qed.
Print Assumptions C60_todense.

Theorem C60_todense_mismatch : forall T L (m : Z -> T) D (B : sparse T),
  rows D <> sp_rows B \/ cols D <> sp_cols B -> armassp_todense D B L m = Some (-1, m).
Proof.
  intros T L m D B H. unfold armassp_todense.
  replace (negb (rows D =? sp_rows B) || negb (cols D =? sp_cols B)) with true by lia. reflexivity.
Qed.
Print Assumptions C60_todense_mismatch.

(* a position stored more than once: the last stored value wins, it is not summed *)
Theorem C60_duplicates_refuted :
  exists (B : sparse Z) m', valid B /\
    armassp_todense (mkview 100 1 1 1) B (fun a => a =? 100) (fun _ => 0) = Some (0, m') /\
    elt m' (mkview 100 1 1 1) 0 0 = 3 /\ value Znum B 0 0 = 5.
Proof.
  exists (mksparse (noarr 0) (mkarr 2 (fun k => if k =? 0 then mkcoo 2 0 0 else mkcoo 3 0 0)) 1 1 2 (noarr 0) (noarr 0) 0 2 COO 32).
  eexists. split; [|split; [reflexivity|split; reflexivity]].
  unfold valid. cbn. repeat split; try lia; intros; destruct (k =? 0); cbn; lia.
Qed.
Print Assumptions C60_duplicates_refuted.

(* a dense matrix that was not zero before keeps its old elements where nothing is stored *)
Theorem C60_not_cleared_refuted :
  exists (B : sparse Z) m', valid B /\
    armassp_todense (mkview 100 2 2 2) B (fun a => (100 <=? a) && (a <? 104)) (fun _ => 9) = Some (0, m') /\
    elt m' (mkview 100 2 2 2) 0 0 = 9 /\ value Znum B 0 0 = 0.
Proof.
  exists sp_one. eexists. split; [|split; [reflexivity|split; reflexivity]].
  unfold valid. cbn. repeat split; try lia; intros; destruct (k =? 0); cbn; lia.
Qed.
Print Assumptions C60_not_cleared_refuted.

(* ------------------------------------------------------------------ examples *)

(* a 3x4 coordinate list with five elements in no particular order *)
Definition sp_coo : sparse Z :=
  mksparse (noarr 0)
    (mkarr 8 (fun k => if k =? 0 then mkcoo 5 2 1 else if k =? 1 then mkcoo 7 0 3 else if k =? 2 then mkcoo (-1) 0 1
                       else if k =? 3 then mkcoo 4 1 0 else mkcoo 6 2 0))
    3 4 5 (noarr 0) (noarr 0) 0 8 COO 128.
(* a 3x4 compressed column matrix with unordered rows in column one *)
Definition sp_csc : sparse Z :=
  mksparse (mkarr 5 (fun k => if k =? 0 then 4 else if k =? 1 then 6 else if k =? 2 then 5 else if k =? 3 then -1 else 7)) (noarr (coo0 Znum))
    3 4 5 (mkarr 5 (fun k => if k =? 0 then 0 else if k =? 1 then 2 else if k =? 2 then 4 else if k =? 3 then 4 else 5))
    (mkarr 5 (fun k => if k =? 0 then 1 else if k =? 1 then 2 else if k =? 2 then 2 else if k =? 3 then 0 else 0)) 4 5 CSC 96.

Lemma sp_coo_valid : valid sp_coo /\ no_duplicates sp_coo.
Proof.
  split.
  - unfold valid. cbn. repeat split; try lia; intros; repeat (match goal with |- context [if ?b then _ else _] => destruct b end; cbn; try lia).
  - unfold no_duplicates. cbn. repeat (constructor; [cbn; intros H; repeat destruct H as [H|H]; try discriminate; auto|]). constructor.
Qed.
Lemma sp_csc_valid : valid sp_csc /\ no_duplicates sp_csc.
Proof.
  split.
  - unfold valid. cbn. repeat split; try lia; intros;
    repeat (match goal with |- context [if ?b then _ else _] => destruct b eqn:? end; cbn; try lia).
  - unfold no_duplicates. cbn. repeat (constructor; [cbn; intros H; repeat destruct H as [H|H]; try discriminate; auto|]). constructor.
Qed.

(* the outcome of a run without undefined behaviour *)
Definition outcome {T A} (c : M T A) (L : Z -> bool) (m : Z -> T) (P : A -> (Z -> T) -> Prop) : Prop :=
  match c L m with Some (a, m') => P a m' | None => False end.
Notation "'nothing'" := (fun _ : Z => false) (only parsing).

Example C35_nonvacuous :
  coo_ready sp_coo /\ Permutation (entries sp_coo) (entries sp_csc) /\
  outcome (appends Znum 8 (fun _ => true) sp_coo [(1, 1, 9); (0, 0, 8); (1, 2, 7); (2, 2, 3); (2, 3, 11)]) nothing (fun _ => 0)
    (fun r _ => fst r = [0; 0; 0; 0; 0] /\ sp_size (snd r) = 72 /\ sp_nnz (snd r) = 10 /\ value Znum (snd r) 2 3 = 11).
Proof.
  split; [unfold coo_ready; cbn; repeat split; lia|]. split.
  - vm_compute. apply NoDup_Permutation_bis.
    + repeat (constructor; [cbn; intros H; repeat destruct H as [H|H]; try discriminate; auto|]). constructor.
    + apply le_n.
    + intros x H. vm_compute in H |- *. intuition.
  - vm_compute. repeat split; reflexivity.
Qed.
(* with no memory, the append beyond the reserve fails and changes nothing *)
Example C35_nonvacuous_fail :
  outcome (appends Znum 8 (fun _ => false) sp_coo [(1, 1, 9); (0, 0, 8); (1, 2, 7); (2, 2, 3)]) nothing (fun _ => 0)
    (fun r _ => fst r = [0; 0; 0; -1] /\ sp_nnz (snd r) = 8 /\ value Znum (snd r) 2 2 = 0).
Proof. vm_compute. repeat split; reflexivity. Qed.

Example C36_nonvacuous : valid sp_coo /\ no_duplicates sp_coo /\ sp_kind sp_coo <> CSC /\ sp_kind sp_coo <> CSR /\
  outcome (armassp_convert Znum 8 (fun _ => true) sp_coo CSR) nothing (fun _ => 0)
    (fun r _ => option_map entries r = Some [(0, 1, -1); (0, 3, 7); (1, 0, 4); (2, 0, 6); (2, 1, 5)]).
Proof.
  split; [apply sp_coo_valid|]. split; [apply sp_coo_valid|]. split; [discriminate|]. split; [discriminate|].
  vm_compute. reflexivity.
Qed.

Example C37_nonvacuous : valid sp_csc /\ no_duplicates sp_csc /\ ~ ascending sp_csc /\
  outcome (armassp_transpose Znum 8 (fun _ => true) sp_csc) nothing (fun _ => 0)
    (fun r _ => option_map entries r = Some [(1, 0, -1); (3, 0, 7); (0, 1, 4); (0, 2, 6); (1, 2, 5)]).
Proof.
  split; [apply sp_csc_valid|]. split; [apply sp_csc_valid|]. split.
  - intros H. specialize (H 1 2 3 ltac:(cbn; lia) ltac:(cbn; lia) ltac:(lia) ltac:(cbn; lia)). cbn in H. lia.
  - vm_compute. reflexivity.
Qed.

Example C38_nonvacuous : valid sp_csc /\ ~ ascending sp_csc /\
  outcome (armassp_sort sp_csc) nothing (fun _ => 0) (fun r _ => fst r = 0 /\ line_of (snd r) 1 = [(0, -1); (2, 5)]).
Proof. split; [apply sp_csc_valid|]. split; [exact (proj1 (proj2 (proj2 C37_nonvacuous)))|]. vm_compute. split; reflexivity. Qed.

Example C59_nonvacuous : valid sp_csc /\
  outcome (armassp_mkcopy Znum 8 (fun _ => true) sp_csc) nothing (fun _ => 0)
    (fun r _ => option_map entries r = Some [(1, 0, 4); (2, 0, 6); (2, 1, 5); (0, 1, -1); (0, 3, 7)]).
Proof. split; [apply sp_csc_valid|]. vm_compute. reflexivity. Qed.

Example C60_nonvacuous : valid sp_csc /\ no_duplicates sp_csc /\
  outcome (armassp_todense (mkview 100 5 3 4) sp_csc) (fun a => (100 <=? a) && (a <? 120)) (fun _ => 0)
    (fun r m' => r = 0 /\ elt m' (mkview 100 5 3 4) 0 3 = 7 /\ elt m' (mkview 100 5 3 4) 2 1 = 5 /\ elt m' (mkview 100 5 3 4) 1 1 = 0 /\ m' 103 = 0).
Proof. split; [apply sp_csc_valid|]. split; [apply sp_csc_valid|]. vm_compute. repeat split; reflexivity. Qed.
