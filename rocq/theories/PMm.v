(* PMm.v: lemmas about Matrix Market files. *)
From Coq Require Import String Ascii.
From Coq Require Import ZArith Bool List Lia.
From Verif Require Import MBase Mem MNum MFlags MSparse SpecSparse SpecJson MIo MMm PIo PJsonw PSparse.
Import ListNotations.
Local Open Scope Z_scope.
Ltac lia := Lia.lia.

Lemma split_line_app : forall l f, ~ In cNL l -> split_line (l ++ cNL :: f) = (l ++ [cNL], f).
Proof.
  induction l as [|c l IH]; intros f H; cbn [app split_line]; [reflexivity|].
  assert (c <> cNL) by (intro; apply H; left; auto). replace (c =? cNL) with false by lia. rewrite IH by (intro; apply H; right; auto). reflexivity.
Qed.
Lemma getline_app : forall l f, ~ In cNL l -> getline (l ++ cNL :: f) = Some (l ++ [cNL], f).
Proof. intros l f H. unfold getline. destruct (l ++ cNL :: f) eqn:E; [destruct l; discriminate|]. rewrite <- E, split_line_app by auto. reflexivity. Qed.

Lemma dec_chars : forall n c, In c (dec n) -> 48 <= c <= 57 \/ c = cMINUS.
Proof.
  intros n c. unfold dec. assert (H : forall m x, 0 <= m -> In x (dec_pos (S (Z.to_nat (Z.log2 m))) m) -> 48 <= x <= 57).
  { intros m x Hm Hx. destruct (dec_pos_digs (S (Z.to_nat (Z.log2 m))) m Hm ltac:(discriminate)) as [_ HF]. rewrite Forall_forall in HF. apply HF. auto. }
  destruct (n <? 0) eqn:E; cbn [In].
  - intros [<-|Hc]; [right; reflexivity|left]. apply (H (- n)); auto. lia.
  - intro Hc. left. apply (H n); auto. lia.
Qed.
Lemma dec_nl : forall n, ~ In cNL (dec n).
Proof. intros n H. apply dec_chars in H. unfold cNL, cMINUS in H. lia. Qed.
Lemma dec_head : forall n r, 0 <= n -> isdigit (nth 0 (dec n ++ r) 0) = true /\ nth 0 (dec n ++ r) 0 <> cPCT /\ nth 1 (dec n ++ cSP :: r) 0 <> cPCT.
Proof.
  intros n r Hn. pose proof (dec_pos_digs (S (Z.to_nat (Z.log2 n))) n Hn ltac:(discriminate)) as [H1 H2]. unfold dec. replace (n <? 0) with false by lia. cbv zeta.
  set (l := dec_pos _ n) in *. destruct l as [|a l]; [congruence|]. inversion H2 as [|? ? Ha Hl]; subst. cbn [nth app]. split; [|split].
  - apply digit_isdigit; auto.
  - unfold cPCT. lia.
  - destruct l as [|b l]; cbn [nth app]; [discriminate|]. inversion Hl; subst. unfold cPCT. lia.
Qed.

Lemma i32_in : forall x, - 2 ^ 31 <= x < 2 ^ 31 -> i32 x = Some x.
Proof. intros x H. unfold i32. match goal with |- (if ?b then _ else _) = _ => replace b with true by lia end. reflexivity. Qed.

Lemma in_app3 : forall a b c (x : Z), ~ In x a -> ~ In x b -> ~ In x c -> ~ In x (a ++ b ++ c).
Proof. intros a b c x A B C H. rewrite !in_app_iff in H. tauto. Qed.

Lemma sp_nl : ~ In cNL [cSP]. Proof. intros [H|[]]. discriminate H. Qed.

(* the line with the sizes *)
Lemma size_array : forall m n f tc, 0 <= m < 2 ^ 31 -> 0 <= n < 2 ^ 31 -> has tc MM_COORDINATE = false ->
  mmread_size (dec m ++ [cSP] ++ dec n ++ [cNL] ++ f) tc = Some (m, n, 0, f).
Proof.
  intros m n f tc Hm Hn Ht. unfold mmread_size.
  replace (dec m ++ [cSP] ++ dec n ++ [cNL] ++ f) with ((dec m ++ [cSP] ++ dec n) ++ cNL :: f) by (rewrite <- !app_assoc; reflexivity).
  cbn [skip_comments]. rewrite getline_app by (apply in_app3; auto using dec_nl, sp_nl).
  assert (E : ((dec m ++ [cSP] ++ dec n) ++ [cNL]) = dec m ++ [cSP] ++ dec n ++ [cNL]) by (rewrite <- !app_assoc; reflexivity). rewrite E.
  destruct (dec_head m ([cSP] ++ dec n ++ [cNL]) ltac:(lia)) as (H1 & H2 & _).
  replace (nth 0 (dec m ++ [cSP] ++ dec n ++ [cNL]) 0 =? cPCT) with false by lia. cbn [obind]. rewrite H1, orb_true_r.
  rewrite strtol_dec by reflexivity. rewrite i32_in by lia. cbn [obind past app]. rewrite strtol_dec by reflexivity. rewrite i32_in by lia. cbn [obind]. rewrite Ht. reflexivity.
Qed.
Lemma size_coord : forall m n z f tc, 0 <= m < 2 ^ 31 -> 0 <= n < 2 ^ 31 -> 0 <= z < 2 ^ 31 -> has tc MM_COORDINATE = true ->
  mmread_size (dec m ++ [cSP] ++ dec n ++ [cSP] ++ dec z ++ [cNL] ++ f) tc = Some (m, n, z, f).
Proof.
  intros m n z f tc Hm Hn Hz Ht. unfold mmread_size.
  replace (dec m ++ [cSP] ++ dec n ++ [cSP] ++ dec z ++ [cNL] ++ f) with ((dec m ++ [cSP] ++ (dec n ++ [cSP] ++ dec z)) ++ cNL :: f) by (rewrite <- !app_assoc; reflexivity).
  cbn [skip_comments]. rewrite getline_app by (repeat apply in_app3; auto using dec_nl, sp_nl).
  assert (E : ((dec m ++ [cSP] ++ (dec n ++ [cSP] ++ dec z)) ++ [cNL]) = dec m ++ [cSP] ++ dec n ++ [cSP] ++ dec z ++ [cNL]) by (rewrite <- !app_assoc; reflexivity). rewrite E.
  destruct (dec_head m ([cSP] ++ dec n ++ [cSP] ++ dec z ++ [cNL]) ltac:(lia)) as (H1 & H2 & _).
  replace (nth 0 (dec m ++ [cSP] ++ dec n ++ [cSP] ++ dec z ++ [cNL]) 0 =? cPCT) with false by lia. cbn [obind]. rewrite H1, orb_true_r.
  rewrite strtol_dec by reflexivity. rewrite i32_in by lia. cbn [obind past app]. rewrite strtol_dec by reflexivity. rewrite i32_in by lia. cbn [obind]. rewrite Ht.
  cbn [obind past app]. rewrite strtol_dec by reflexivity. cbn [fst]. rewrite i32_in by lia. reflexivity.
Qed.

(* the banners that are written *)
Definition banner (s t : string) : list Z := codes "%%Matrixmarket matrix " ++ codes s ++ codes " real " ++ codes t ++ [cNL].
Lemma banner_read : forall types f b tc, (exists l, b = l ++ [cNL] /\ ~ In cNL l /\ (length b <= 511)%nat /\ nth 0 b 0 = cPCT /\ banner_toks types 0 0 (strsep_all (before_nl b)) = Some tc) ->
  mmread_banner types (b ++ f) = (Some tc, f).
Proof.
  intros types f b tc (l & -> & Hl & Hn & H0 & Ht). unfold mmread_banner, fgets.
  replace ((l ++ [cNL]) ++ f) with (l ++ cNL :: f) by (rewrite <- app_assoc; reflexivity).
  destruct (l ++ cNL :: f) eqn:E; [destruct l; discriminate|]. rewrite <- E, split_line_app by auto. cbn [fst].
  replace (Z.of_nat (length (l ++ [cNL])) <=? 511) with true by lia. rewrite H0, Z.eqb_refl. cbn [negb andb]. rewrite Ht. reflexivity.
Qed.

Section Load.
  Context {T : Type} (zero : T).
  Variable fmte : T -> list Z.
  Variable sscan : list Z -> scanned T.

  (* values written are read back *)
  Definition number_text : Prop := forall x, ~ In cNL (fmte x) /\ nth 0 (fmte x) 0 <> cPCT /\ sscan (fmte x ++ [cNL]) = Got x /\ sscan (cSP :: fmte x ++ [cNL]) = Got x.
  Hypothesis HF : number_text.

  Lemma value_line : forall x f, getline ((fmte x ++ [cNL]) ++ f) = Some (fmte x ++ [cNL], f) /\ nth 0 (fmte x ++ [cNL]) 0 <> cPCT /\ sscan (fmte x ++ [cNL]) = Got x.
  Proof.
    intros x f. destruct (HF x) as (H1 & H2 & H3 & _). split; [|split; auto].
    - rewrite <- app_assoc. apply getline_app. auto.
    - destruct (fmte x); [discriminate|exact H2].
  Qed.

  Variables (tc m n nelem : Z) (elt : Z -> Z -> T).
  Hypothesis Harr : has tc MM_ARRAY = true.
  Hypothesis Hm : 0 <= m. Hypothesis Hn : 0 <= n.

  Definition line_text (p : Z * Z) : list Z := fmte (elt (fst p) (snd p)) ++ [cNL].

  (* the matrix is filled at the positions done *)
  Definition filled (A0 A : dmat T) (done : Z -> Z -> Prop) : Prop :=
    d_rows A = m /\ d_cols A = n /\ d_step A = d_step A0 /\
    forall i j, 0 <= i < m -> 0 <= j < n -> (done i j -> d_elt A i j = elt i j) /\ (~ done i j -> d_elt A i j = d_elt A0 i j).

  Definition fits (A : dmat T) : Prop := d_rows A = m /\ d_cols A = n /\ (0 < m -> 0 < n -> d_step A = m).

  Lemma set_fill : forall A0 A done i j, fits A0 -> filled A0 A done -> 0 <= i < m -> 0 <= j < n ->
    exists A', d_set A i j (elt i j) = Some A' /\ filled A0 A' (fun p q => done p q \/ (p = i /\ q = j)).
  Proof.
    intros A0 A done i j (F1 & F2 & F3) (G1 & G2 & G3 & G4) Hi Hj. specialize (F3 ltac:(lia) ltac:(lia)). unfold d_set. rewrite G1, G2, G3, F3.
    replace ((0 <=? i + j * m) && (i + j * m <? m * n)) with true by nia.
    eexists. split; [reflexivity|]. split; [reflexivity|]. split; [reflexivity|]. cbn [d_step]. split; [congruence|].
    intros p q Hp Hq. unfold d_elt. cbn [d_mem d_step]. destruct (G4 p q Hp Hq) as [X Y]. unfold d_elt in X, Y. rewrite G3, F3 in *.
    destruct (Z.eqb_spec (p + q * m) (i + j * m)) as [E|E].
    - assert (q = j) by nia. assert (p = i) by nia. subst. split; [auto|]. intro N. exfalso. apply N. auto.
    - split; [intros [D|[-> ->]]; [apply X; auto|congruence]|]. intro N. apply Y. intro D. apply N. auto.
  Qed.

  (* one line that holds a number *)
  Lemma loop_line : forall fuel x f s s', l_k s < nelem -> (length ((fmte x ++ [cNL]) ++ f) < fuel)%nat ->
    mm_line sscan tc m (fmte x ++ [cNL]) s = Some (Some s') ->
    exists fuel', (length f < fuel')%nat /\ mm_loop sscan fuel tc m nelem ((fmte x ++ [cNL]) ++ f) s = mm_loop sscan fuel' tc m nelem f s'.
  Proof.
    intros fuel x f s s' Hk Hf Hs. destruct fuel as [|fuel]; [lia|]. destruct (value_line x f) as (G1 & G2 & _).
    exists fuel. split; [rewrite !app_length in Hf; cbn in Hf; lia|]. cbn [mm_loop]. rewrite G1. replace (l_k s <? nelem) with true by lia.
    replace (nth 0 (fmte x ++ [cNL]) 0 =? cPCT) with false by lia. rewrite Hs. reflexivity.
  Qed.

  (* general layout *)
  Lemma general_col : has tc MM_SYMMETRIC = false -> forall A0 j, fits A0 -> 0 <= j < n -> nelem = m * n ->
    forall i, 0 <= i -> i <= m -> forall fuel f s, filled A0 (l_A s) (fun p q => q < j \/ (q = j /\ p < m - i)) -> l_k s = j * m + (m - i) -> l_nc s = m ->
    (length (flat_map line_text (map (fun k => (k, j)) (zr (m - i) m)) ++ f) < fuel)%nat ->
    exists fuel' s', (length f < fuel')%nat /\ filled A0 (l_A s') (fun p q => q < j + 1) /\ l_k s' = (j + 1) * m /\ l_nc s' = m /\
      mm_loop sscan fuel tc m nelem (flat_map line_text (map (fun k => (k, j)) (zr (m - i) m)) ++ f) s = mm_loop sscan fuel' tc m nelem f s'.
  Proof.
    intros Hg A0 j Fi Hj Ne i Hi. pattern i. apply natlike_ind; [| |exact Hi]; clear i Hi.
    - intros _ fuel f s Hfl Hk Hnc Hf. rewrite zr_nil in * by lia. cbn [map flat_map app] in *. exists fuel, s. split; [lia|]. split; [|split; [lia|auto]].
      destruct Hfl as (X1 & X2 & X3 & X4). split; [auto|]. split; [auto|]. split; [auto|]. intros p q Hp Hq. destruct (X4 p q Hp Hq) as [Y1 Y2].
      split; intro D; [apply Y1; lia|apply Y2; lia].
    - intros i Hi IH Hle fuel f s Hfl Hk Hnc Hf. unfold Z.succ in *. rewrite (zr_cons (m - (i + 1)) m) in * by lia. replace (m - (i + 1) + 1) with (m - i) in * by lia.
      cbn [map flat_map] in *. rewrite <- app_assoc in *. set (r := m - (i + 1)) in *.
      destruct (set_fill A0 (l_A s) _ r j Fi Hfl ltac:(lia) Hj) as (A' & HA & FA).
      assert (EL : mm_line sscan tc m (line_text (r, j)) s = Some (Some (mkls (l_k s + 1) r j (l_nc s) (elt r j) A'))).
      { unfold mm_line, line_text. rewrite Harr, Hg. destruct (value_line (elt r j) []) as (_ & _ & G). cbn [fst snd]. rewrite G.
        assert (E1 : Z.rem (l_k s) m = r). { rewrite Z.rem_mod_nonneg by nia. replace (l_k s) with (r + j * m) by nia. rewrite Z.mod_add by lia. apply Z.mod_small. lia. }
        assert (E2 : Z.quot (l_k s) m = j). { rewrite Z.quot_div_nonneg by nia. replace (l_k s) with (r + j * m) by nia. rewrite Z.div_add by lia. rewrite Z.div_small by lia. lia. }
        rewrite E1, E2. destruct Hfl as (X1 & X2 & _). rewrite X1, X2. replace ((0 <=? r) && (r <? m) && (0 <=? j) && (j <? n)) with true by lia. rewrite HA. reflexivity. }
      destruct (loop_line fuel (elt r j) _ s _ ltac:(nia) Hf EL) as (f1 & F1 & E1). unfold line_text at 1. cbn [fst snd]. rewrite E1.
      destruct (IH ltac:(lia) f1 f (mkls (l_k s + 1) r j (l_nc s) (elt r j) A')) as (f2 & s2 & U1 & U2 & U3 & U4 & U5); cbn [l_k l_A l_nc]; auto; try lia.
      { destruct FA as (X1 & X2 & X3 & X4). split; [auto|]. split; [auto|]. split; [auto|]. intros p q Hp Hq. destruct (X4 p q Hp Hq) as [Y1 Y2].
        split; intro D; [apply Y1; lia|apply Y2; lia]. }
      exists f2, s2. auto.
  Qed.

  Lemma general_all : has tc MM_SYMMETRIC = false -> forall A0, fits A0 -> nelem = m * n ->
    forall i, 0 <= i -> i <= n -> forall fuel f s, filled A0 (l_A s) (fun p q => q < n - i) -> l_k s = (n - i) * m -> l_nc s = m ->
    (length (flat_map line_text (flat_map (fun j => map (fun k => (k, j)) (zr 0 m)) (zr (n - i) n)) ++ f) < fuel)%nat ->
    exists fuel' s', (length f < fuel')%nat /\ filled A0 (l_A s') (fun p q => True) /\ l_k s' = nelem /\
      mm_loop sscan fuel tc m nelem (flat_map line_text (flat_map (fun j => map (fun k => (k, j)) (zr 0 m)) (zr (n - i) n)) ++ f) s = mm_loop sscan fuel' tc m nelem f s'.
  Proof.
    intros Hg A0 Fi Ne i Hi. pattern i. apply natlike_ind; [| |exact Hi]; clear i Hi.
    - intros _ fuel f s Hfl Hk Hnc Hf. rewrite (zr_nil (n - 0)) in * by lia. cbn [flat_map app] in *. exists fuel, s. split; [lia|]. split; [|split; [nia|auto]].
      destruct Hfl as (X1 & X2 & X3 & X4). split; [auto|]. split; [auto|]. split; [auto|]. intros p q Hp Hq. destruct (X4 p q Hp Hq) as [Y1 Y2].
      split; intro D; [apply Y1; lia|tauto].
    - intros i Hi IH Hle fuel f s Hfl Hk Hnc Hf. unfold Z.succ in *. rewrite (zr_cons (n - (i + 1)) n) in * by lia. replace (n - (i + 1) + 1) with (n - i) in * by lia.
      cbn [flat_map] in *. rewrite flat_map_app, <- app_assoc in *. set (j := n - (i + 1)) in *.
      destruct (general_col Hg A0 j Fi ltac:(lia) Ne m Hm ltac:(lia) fuel (flat_map line_text (flat_map (fun j => map (fun k => (k, j)) (zr 0 m)) (zr (n - i) n)) ++ f) s) as (f1 & s1 & U1 & U2 & U3 & U4 & U5).
      + destruct Hfl as (X1 & X2 & X3 & X4). split; [auto|]. split; [auto|]. split; [auto|]. intros p q Hp Hq. destruct (X4 p q Hp Hq) as [Y1 Y2].
        split; intro D; [apply Y1; lia|apply Y2; lia].
      + lia.
      + auto.
      + replace (m - m) with 0 by lia. exact Hf.
      + replace (m - m) with 0 in U5 by lia. rewrite U5.
        destruct (IH ltac:(lia) f1 f s1) as (f2 & s2 & V1 & V2 & V3 & V4); auto.
        { replace (n - i) with (j + 1) by lia. exact U2. } { rewrite U3. f_equal. lia. }
        exists f2, s2. auto.
  Qed.

  (* symmetric layout: the columns from the diagonal down *)
  Lemma filled_ext : forall A0 A (d1 d2 : Z -> Z -> Prop), (forall i j, 0 <= i < m -> 0 <= j < n -> d1 i j <-> d2 i j) -> filled A0 A d1 -> filled A0 A d2.
  Proof.
    intros A0 A d1 d2 E (X1 & X2 & X3 & X4). split; [auto|]. split; [auto|]. split; [auto|]. intros p q Hp Hq. destruct (X4 p q Hp Hq) as [Y1 Y2]. pose proof (E p q Hp Hq).
    split; intro D; [apply Y1; tauto|apply Y2; tauto].
  Qed.

  Hypothesis Hsym : has tc MM_SYMMETRIC = true -> m = n.

  (* the element (i, j) is stored when that is where the counters point *)
  Lemma sym_store : has tc MM_SYMMETRIC = true -> forall A0 (done : Z -> Z -> Prop) s i j, fits A0 -> filled A0 (l_A s) done -> 0 <= i < m -> 0 <= j < n ->
    (l_k s = l_nc s /\ l_c s + 1 = j /\ i = j) \/ (l_k s <> l_nc s /\ l_r s + 1 = i /\ l_c s = j) ->
    exists A', filled A0 A' (fun p q => done p q \/ (p = i /\ q = j)) /\
      mm_line sscan tc m (line_text (i, j)) s = Some (Some (mkls (l_k s + 1) i j (if l_k s =? l_nc s then l_nc s + (m - j) else l_nc s) (elt i j) A')).
  Proof.
    intros Hs A0 done s i j Fi Hfl Hi Hj Hp. destruct (set_fill A0 (l_A s) done i j Fi Hfl Hi Hj) as (A' & HA & FA). exists A'. split; [exact FA|].
    unfold mm_line, line_text. rewrite Harr, Hs. destruct (value_line (elt i j) []) as (_ & _ & G). cbn [fst snd]. rewrite G.
    destruct Hfl as (X1 & X2 & _). rewrite X1, X2. destruct (Z.eqb_spec (l_k s) (l_nc s)) as [E|E].
    - destruct Hp as [(_ & P1 & P2)|(P & _)]; [|congruence]. rewrite P1. replace (j - 1 + 1) with i by lia.
      replace ((0 <=? i) && (i <? m) && (0 <=? j) && (j <? n)) with true by lia. rewrite HA. reflexivity.
    - destruct Hp as [(P & _)|(_ & P1 & P2)]; [congruence|]. rewrite P1, P2.
      replace ((0 <=? i) && (i <? m) && (0 <=? j) && (j <? n)) with true by lia. rewrite HA. reflexivity.
  Qed.

  Lemma sym_col : has tc MM_SYMMETRIC = true -> forall A0 j, fits A0 -> 0 <= j < n ->
    forall i, 0 <= i -> i < m - j -> forall fuel f s, filled A0 (l_A s) (fun p q => q <= p /\ (q < j \/ (q = j /\ p < m - i))) ->
    l_c s = j -> l_r s = m - i - 1 -> l_nc s = l_k s + i -> l_nc s <= nelem ->
    (length (flat_map line_text (map (fun k => (k, j)) (zr (m - i) m)) ++ f) < fuel)%nat ->
    exists fuel' s', (length f < fuel')%nat /\ filled A0 (l_A s') (fun p q => q <= p /\ q < j + 1) /\ l_k s' = l_nc s /\ l_nc s' = l_nc s /\ l_c s' = j /\
      mm_loop sscan fuel tc m nelem (flat_map line_text (map (fun k => (k, j)) (zr (m - i) m)) ++ f) s = mm_loop sscan fuel' tc m nelem f s'.
  Proof.
    intros Hs A0 j Fi Hj i Hi. pattern i. apply natlike_ind; [| |exact Hi]; clear i Hi.
    - intros _ fuel f s Hfl Hc Hr Hnc Hle Hf. rewrite zr_nil in * by lia. cbn [map flat_map app] in *. exists fuel, s. split; [lia|]. split; [|split; [lia|split; [auto|split; auto]]].
      eapply filled_ext; [|exact Hfl]. intros p q Hp Hq. cbn beta. lia.
    - intros i Hi IH Hlt fuel f s Hfl Hc Hr Hnc Hle Hf. unfold Z.succ in *. rewrite (zr_cons (m - (i + 1)) m) in * by lia. replace (m - (i + 1) + 1) with (m - i) in * by lia.
      cbn [map flat_map] in *. rewrite <- app_assoc in *. set (r := m - (i + 1)) in *.
      destruct (sym_store Hs A0 _ s r j Fi Hfl ltac:(lia) Hj ltac:(right; lia)) as (A' & FA & EL).
      destruct (loop_line fuel (elt r j) _ s _ ltac:(lia) Hf EL) as (f1 & F1 & E1). unfold line_text at 1. cbn [fst snd]. rewrite E1.
      replace (l_k s =? l_nc s) with false in * by lia.
      destruct (IH ltac:(lia) f1 f (mkls (l_k s + 1) r j (l_nc s) (elt r j) A')) as (f2 & s2 & U1 & U2 & U3 & U4 & U5 & U6); cbn [l_k l_A l_nc l_r l_c]; auto; try lia.
      { eapply filled_ext; [|exact FA]. intros p q Hp Hq. cbn beta. lia. }
      exists f2, s2. cbn [l_nc] in *. auto 10.
  Qed.

  Definition at_column (j : Z) (s : lstate (T := T)) : Prop := (j = 0 /\ l_k s = 0 /\ l_r s = -1 /\ l_c s = 0 /\ l_nc s = m) \/ (0 < j /\ l_k s = l_nc s /\ l_c s = j - 1).

  Lemma sym_all : has tc MM_SYMMETRIC = true -> forall A0, fits A0 -> forall i, 0 <= i -> i <= n -> forall fuel f s, filled A0 (l_A s) (fun p q => q <= p /\ q < n - i) -> at_column (n - i) s ->
    2 * (nelem - l_k s) = i * (i + 1) ->
    (length (flat_map line_text (flat_map (fun j => map (fun k => (k, j)) (zr j m)) (zr (n - i) n)) ++ f) < fuel)%nat ->
    exists fuel' s', (length f < fuel')%nat /\ filled A0 (l_A s') (fun p q => q <= p) /\ l_k s' = nelem /\
      mm_loop sscan fuel tc m nelem (flat_map line_text (flat_map (fun j => map (fun k => (k, j)) (zr j m)) (zr (n - i) n)) ++ f) s = mm_loop sscan fuel' tc m nelem f s'.
  Proof.
    intros Hs A0 Fi i Hi. pattern i. apply natlike_ind; [| |exact Hi]; clear i Hi; pose proof (Hsym Hs) as Emn.
    - intros _ fuel f s Hfl Hc Hk Hf. rewrite (zr_nil (n - 0)) in * by lia. cbn [flat_map app] in *. exists fuel, s. split; [lia|]. split; [|split; [lia|auto]].
      eapply filled_ext; [|exact Hfl]. intros p q Hp Hq. cbn beta. lia.
    - intros i Hi IH Hle fuel f s Hfl Hc Hk Hf. unfold Z.succ in *. rewrite (zr_cons (n - (i + 1)) n) in * by lia. replace (n - (i + 1) + 1) with (n - i) in * by lia.
      cbn [flat_map] in *. rewrite flat_map_app, <- app_assoc in *. set (j := n - (i + 1)) in *.
      rewrite (zr_cons j m) in * by lia. cbn [map flat_map] in *. rewrite <- app_assoc in *.
      destruct (sym_store Hs A0 _ s j j Fi Hfl ltac:(lia) ltac:(lia) ltac:(unfold at_column in Hc; lia)) as (A' & FA & EL).
      destruct (loop_line fuel (elt j j) _ s _ ltac:(nia) Hf EL) as (f1 & F1 & E1). unfold line_text at 1. cbn [fst snd]. rewrite E1.
      set (nc := if l_k s =? l_nc s then l_nc s + (m - j) else l_nc s) in *.
      assert (Enc : nc = l_k s + (m - j)) by (unfold nc, at_column in *; destruct (Z.eqb_spec (l_k s) (l_nc s)); lia).
      replace (j + 1) with (m - i) in * by lia.
      destruct (sym_col Hs A0 j Fi ltac:(lia) i Hi ltac:(lia) f1 (flat_map line_text (flat_map (fun j => map (fun k => (k, j)) (zr j m)) (zr (n - i) n)) ++ f)
                  (mkls (l_k s + 1) j j nc (elt j j) A')) as (f2 & s2 & U1 & U2 & U3 & U4 & U5 & U6); cbn [l_k l_A l_nc l_r l_c]; auto; try nia.
      { eapply filled_ext; [|exact FA]. intros p q Hp Hq. cbn beta. lia. }
      rewrite U6. cbn [l_nc] in *.
      destruct (IH ltac:(lia) f2 f s2) as (f3 & s3 & V1 & V2 & V3 & V4); auto.
      { eapply filled_ext; [|exact U2]. intros p q Hp Hq. cbn beta. lia. } { right. lia. } { nia. }
      exists f3, s3. auto.
  Qed.
End Load.

(* after the elements the loop reads one more line, if there is one *)
Definition next_line (f : list Z) : list Z := snd (split_line f).
Lemma loop_stop : forall T sscan fuel tc m nelem f (s : lstate (T := T)), (length f < fuel)%nat -> l_k s = nelem ->
  mm_loop sscan fuel tc m nelem f s = Some (s, next_line f).
Proof.
  intros T sscan fuel tc m nelem f s Hf Hk. destruct fuel as [|fuel]; [lia|]. cbn [mm_loop]. unfold getline, next_line. destruct f; [reflexivity|].
  destruct (split_line (z :: f)). replace (l_k s <? nelem) with false by lia. reflexivity.
Qed.
