(* PUpd.v: proof rules for programs that write the elements of a matrix or a
   vector one after the other. *)
From Coq Require Import ZArith Lia Bool ZifyBool.
From Verif Require Import Mem MView SpecView PView PSub Hoare MCopy.
Local Open Scope Z_scope.
Local Open Scope prog_scope.

(* address of element k of a vector / of element (i,j) of a matrix *)
Definition vad (x : view) (k : Z) : Z :=
  elems x + snd (vec_pos x k) * step x + fst (vec_pos x k).
Definition mad (A : view) (p : Z * Z) : Z := elems A + snd p * step A + fst p.
Definition vdom (x : view) (k : Z) : Prop := 0 <= k < vlen x.
Definition mdom (A : view) (p : Z * Z) : Prop := pos A (fst p) (snd p).

Lemma vad_eq : forall x k, elems x + k * vinc x = vad x k.
Proof.
  intros x k. unfold vinc, vad, vec_pos. destruct (rows x =? 1); cbn; lia.
Qed.

Lemma vad_cell : forall x k, isvec x -> wf x -> vdom x k -> cell x (vad x k).
Proof.
  intros x k Hv Hw Hk. apply vec_cell; auto. exists k. split; auto.
Qed.

Lemma vcell_inv : forall x a, isvec x -> wf x -> cell x a -> exists k, vdom x k /\ a = vad x k.
Proof. intros x a Hv Hw Hc. apply vec_cell in Hc; auto. Qed.

Lemma vad_inj : forall x, isvec x -> wf x -> inj_on (vdom x) (vad x).
Proof.
  intros x Hv Hw p q Hp Hq E.
  destruct (vaddr x p Hv Hw Hp) as (P1 & _). destruct (vaddr x q Hv Hw Hq) as (P2 & _).
  unfold vad in E. pose proof (pos_inj x _ _ _ _ Hw P1 P2 ltac:(lia)) as H'.
  unfold vec_pos in *. destruct (rows x =? 1); cbn in *; lia.
Qed.

Lemma mad_inj : forall A, wf A -> inj_on (mdom A) (mad A).
Proof.
  intros A Hw [i j] [i' j'] Hp Hq E. unfold mdom, mad in *; cbn in *.
  destruct (pos_inj A i j i' j') as (-> & ->); auto. lia.
Qed.

Lemma mad_cell : forall A i j, pos A i j -> cell A (mad A (i, j)).
Proof. intros. exists i, j. split; auto. Qed.

Lemma mad_addr : forall A i j, addr A i j = mad A (i, j).
Proof. intros; unfold addr, mad; cbn; lia. Qed.

Lemma velt_vad : forall T (m : Z -> T) x k, velt m x k = m (vad x k).
Proof. reflexivity. Qed.
Lemma elt_mad : forall T (m : Z -> T) A i j, elt m A i j = m (mad A (i, j)).
Proof. reflexivity. Qed.

Section Rules.
  Context {T : Type}.
  Implicit Types (m : Z -> T) (L : Z -> bool).

  (* general write: element p gets value v *)
  Lemma wp_wr_gen : forall I (D : I -> Z) (F G : I -> T) L m0 (U S : I -> Prop) m p a v
      (Q : unit -> (Z -> T) -> Prop),
    upd m0 D F S m -> inj_on U D -> (forall q, S q -> U q) -> U p ->
    a = D p -> L (D p) = true -> G p = v -> (forall q, S q -> q <> p -> G q = F q) ->
    (forall m', upd m0 D G (fun q => S q \/ q = p) m' -> Q tt m') ->
    wp (wr a v) L m Q.
  Proof.
    intros I D F G L m0 U S m p a v Q (H1 & H2) Hinj HS Hp -> HL HG HF HQ.
    apply wp_wr; auto. apply HQ. split.
    - intros q Hq. destruct (D q =? D p) eqn:E.
      + assert (q = p) as -> by (destruct Hq as [Hq|]; auto; apply Hinj; auto; lia). auto.
      + assert (q <> p) by (intros ->; rewrite Z.eqb_refl in E; discriminate).
        destruct Hq as [Hq|]; [|contradiction]. rewrite HF by auto. apply H1; auto.
    - intros a Ha. destruct (a =? D p) eqn:E.
      + exfalso. apply (Ha p); auto. lia.
      + apply H2. intros q Hq. apply Ha. auto.
  Qed.

  (* vector element *)
  Lemma wp_wr_v : forall L m0 x F S m k a v (Q : unit -> (Z -> T) -> Prop),
    upd m0 (vad x) F S m -> isvec x -> wf x -> allocated L x ->
    (forall q, S q -> vdom x q) -> vdom x k ->
    a = vad x k -> v = F k ->
    (forall m', upd m0 (vad x) F (fun q => S q \/ q = k) m' -> Q tt m') ->
    wp (wr a v) L m Q.
  Proof.
    intros L m0 x F S m k a v Q Hu Hv Hw HL HS Hk -> -> HQ.
    eapply wp_wr_gen; eauto using vad_inj. apply HL, vad_cell; auto.
  Qed.

  (* matrix element *)
  Lemma wp_wr_m : forall L m0 A F S m i j a v (Q : unit -> (Z -> T) -> Prop),
    upd m0 (mad A) F S m -> wf A -> allocated L A ->
    (forall q, S q -> mdom A q) -> pos A i j ->
    a = mad A (i, j) -> v = F (i, j) ->
    (forall m', upd m0 (mad A) F (fun q => S q \/ (fst q = i /\ snd q = j)) m' -> Q tt m') ->
    wp (wr a v) L m Q.
  Proof.
    intros L m0 A F S m i j a v Q Hu Hw HL HS Hk -> -> HQ.
    eapply wp_wr_gen with (p := (i, j)) (G := F) (U := mdom A); eauto using mad_inj.
    - apply HL, mad_cell; auto.
    - intros m' H'. apply HQ. eapply upd_ext; [|exact H']. intros [x y]; cbn.
      split; intros [?|E]; auto; right; [injection E as -> ->|destruct E as (-> & ->)]; auto.
  Qed.

  (* overwrite an element of an already written vector *)
  Lemma wp_wr_vo : forall L m0 x F G S m k a v (Q : unit -> (Z -> T) -> Prop),
    upd m0 (vad x) F S m -> isvec x -> wf x -> allocated L x ->
    (forall q, S q -> vdom x q) -> vdom x k ->
    a = vad x k -> v = G k -> (forall q, S q -> q <> k -> G q = F q) ->
    (forall m', upd m0 (vad x) G (fun q => S q \/ q = k) m' -> Q tt m') ->
    wp (wr a v) L m Q.
  Proof.
    intros L m0 x F G S m k a v Q Hu Hv Hw HL HS Hk -> -> HG HQ.
    eapply wp_wr_gen; eauto using vad_inj. apply HL, vad_cell; auto.
  Qed.

  Lemma wp_wr_mo : forall L m0 A F G S m i j a v (Q : unit -> (Z -> T) -> Prop),
    upd m0 (mad A) F S m -> wf A -> allocated L A ->
    (forall q, S q -> mdom A q) -> pos A i j ->
    a = mad A (i, j) -> v = G (i, j) -> (forall q, S q -> q <> (i, j) -> G q = F q) ->
    (forall m', upd m0 (mad A) G (fun q => S q \/ (fst q = i /\ snd q = j)) m' -> Q tt m') ->
    wp (wr a v) L m Q.
  Proof.
    intros L m0 A F G S m i j a v Q Hu Hw HL HS Hk -> -> HG HQ.
    eapply wp_wr_gen with (p := (i, j)) (G := G) (U := mdom A); eauto using mad_inj.
    - apply HL, mad_cell; auto.
    - intros m' H'. apply HQ. eapply upd_ext; [|exact H']. intros [x y]; cbn.
      split; intros [?|E]; auto; right; [injection E as -> ->|destruct E as (-> & ->)]; auto.
  Qed.

  (* reading *)
  Lemma wp_rd_v : forall L m x k a (Q : T -> (Z -> T) -> Prop),
    isvec x -> wf x -> allocated L x -> vdom x k -> a = vad x k ->
    Q (m (vad x k)) m -> wp (rd a) L m Q.
  Proof. intros L m x k a Q Hv Hw HL Hk -> HQ. apply wp_rd; auto. apply HL, vad_cell; auto. Qed.

  Lemma wp_rd_m : forall L m A i j a (Q : T -> (Z -> T) -> Prop),
    allocated L A -> pos A i j -> a = mad A (i, j) ->
    Q (m (mad A (i, j))) m -> wp (rd a) L m Q.
  Proof. intros L m A i j a Q HL Hk -> HQ. apply wp_rd; auto. apply HL, mad_cell; auto. Qed.

  (* elements not yet written *)
  Lemma upd_other : forall I (D : I -> Z) F m0 (S : I -> Prop) m (C : Z -> Prop) a,
    upd m0 D F S m -> (forall q, S q -> C (D q)) -> ~ C a -> m a = m0 a.
  Proof.
    intros I D F m0 S m C a (_ & H) HS Ha. apply H. intros q Hq ->. apply Ha, HS, Hq.
  Qed.

  Lemma vupd_disj : forall m0 x F S m B a,
    upd m0 (vad x) F S m -> isvec x -> wf x -> (forall q, S q -> vdom x q) ->
    disjoint x B -> cell B a -> m a = m0 a.
  Proof.
    intros m0 x F S m B a (_ & H) Hv Hw HS Hd Hc. apply H. intros q Hq ->.
    apply (Hd (vad x q)); auto. apply vad_cell; auto.
  Qed.

  Lemma mupd_disj : forall m0 A F S m B a,
    upd m0 (mad A) F S m -> (forall q, S q -> mdom A q) ->
    disjoint A B -> cell B a -> m a = m0 a.
  Proof.
    intros m0 A F S m B a (_ & H) HS Hd Hc. apply H. intros [i j] Hq ->.
    apply (Hd (mad A (i, j))); auto. apply mad_cell. apply (HS _ Hq).
  Qed.

  Lemma vupd_old : forall m0 x F S m k,
    upd m0 (vad x) F S m -> isvec x -> wf x -> (forall q, S q -> vdom x q) -> vdom x k -> ~ S k ->
    m (vad x k) = m0 (vad x k).
  Proof.
    intros m0 x F S m k (_ & H) Hv Hw HS Hk Hn. apply H. intros q Hq E.
    apply (vad_inj x Hv Hw) in E; auto. subst; auto.
  Qed.

  Lemma mupd_old : forall m0 A F S m i j,
    upd m0 (mad A) F S m -> wf A -> (forall q, S q -> mdom A q) -> pos A i j -> ~ S (i, j) ->
    m (mad A (i, j)) = m0 (mad A (i, j)).
  Proof.
    intros m0 A F S m i j (_ & H) Hw HS Hk Hn. apply H. intros q Hq E.
    apply (mad_inj A Hw) in E; auto. subst; auto.
  Qed.

  (* the result in terms of the specification *)
  Lemma vupd_only : forall m0 x F S m,
    upd m0 (vad x) F S m -> isvec x -> wf x -> (forall q, S q -> vdom x q) -> only_changes x m0 m.
  Proof.
    intros m0 x F S m (_ & H) Hv Hw HS a Ha. apply H. intros q Hq ->.
    apply Ha, vad_cell; auto.
  Qed.

  Lemma mupd_only : forall m0 A F S m,
    upd m0 (mad A) F S m -> (forall q, S q -> mdom A q) -> only_changes A m0 m.
  Proof.
    intros m0 A F S m (_ & H) HS a Ha. apply H. intros [i j] Hq ->.
    apply Ha, mad_cell. apply (HS _ Hq).
  Qed.

  Lemma upd_weaken : forall I (D : I -> Z) F G m0 (S : I -> Prop) m,
    upd m0 D F S m -> (forall q, S q -> F q = G q) -> upd m0 D G S m.
  Proof. intros I D F G m0 S m (H1 & H2) H. split; auto. intros p Hp. rewrite <- H; auto. Qed.
End Rules.

Lemma isvector_isvec : forall x, armas_isvector x = true <-> isvec x.
Proof. intros x. unfold armas_isvector, isvec. lia. Qed.
