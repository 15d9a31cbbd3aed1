(* PJson.v: lemmas about reading JSON documents. *)
From Coq Require Import String Ascii.
From Coq Require Import ZArith Bool List Lia.
From Verif Require Import MBase MIo SpecJson PIo.
Import ListNotations.
Local Open Scope Z_scope.

Lemma cstr_id : forall l, Forall (fun c => c <> 0) l -> cstr l = l.
Proof.
  induction 1 as [|c l H HF IH]; [reflexivity|]. cbn [cstr].
  rewrite (proj2 (Z.eqb_neq c 0)) by exact H. rewrite IH. reflexivity.
Qed.

Lemma digs_nz : forall l, digs l -> Forall (fun c => c <> 0) l.
Proof. intros l (_ & H). eapply Forall_impl; [|exact H]. cbn. lia. Qed.

Lemma number_nz : forall l, number l -> Forall (fun c => c <> 0) l.
Proof.
  intros l [sg i fr ex Hsg Hi Hfr Hex]. rewrite !Forall_app; split; [|split; [|split]].
  - destruct Hsg as [-> | ->]; repeat constructor; lia.
  - apply digs_nz; exact Hi.
  - destruct Hfr as [-> | (f & -> & Hf)]; [constructor|constructor; [lia|apply digs_nz; exact Hf]].
  - destruct Hex as [-> | (e & s & d & -> & He & Hs & Hd)]; [constructor|constructor; [lia|]].
    apply Forall_app; split; [|apply digs_nz; exact Hd].
    destruct Hs as [-> | [-> | ->]]; repeat constructor; lia.
Qed.

Lemma quoted_nz : forall s q, quoted s q -> Forall (fun c => c <> 0) s.
Proof.
  induction 1 as [|c s q H1 H2 H3 HQ IH|c e s q HI HQ IH]; constructor; try assumption; try lia.
  cbn in HI. repeat match type of HI with _ \/ _ => destruct HI as [HI | HI] | False => destruct HI end;
    inversion HI; subst; lia.
Qed.

Lemma spells_text : forall t ks rest, spells t ks rest -> forall k ks', ks = k :: ks' ->
  cstr (tok_text k) = tok_text k.
Proof.
  induction 1; intros k' ks' E; inversion E; subst; try reflexivity; eauto.
  - apply cstr_id. apply number_nz; assumption.
  - apply cstr_id. eapply quoted_nz; eassumption.
Qed.

Lemma spells_nil : forall t rest, spells t [] rest -> t = rest.
Proof. intros t rest H. inversion H; reflexivity. Qed.

Section Doc.
  Context {T : Type} (zero : T) (strtod : list Z -> T).
  Context {S : Type} (io : stream S) (R : S -> list Z -> Prop) (src : is_source io R).
  Variable fuel : nat.

  Lemma tok_spells : forall t k ks rest x,
    spells t (k :: ks) rest -> R x t -> (length t < fuel)%nat -> short k ->
    exists x' t', spells t' ks rest /\ R x' t' /\ (length t' < length t)%nat /\
      (forall c, k = TPunct c -> R (ungetc io x' c) (c :: t')) /\
      cstr (tok_text k) = tok_text k /\
      tok io fuel x = Some (tok_code k, tok_text k, x').
  Proof.
    intros t k ks rest x HS HR Hf Hk. unfold tok, json_read_token, IOB.
    unfold short in Hk.
    destruct (rt_spells io R src 64 t (k :: ks) rest HS k ks fuel x eq_refl)
      as (x' & t' & H1 & H2 & H3 & H4 & H5); [lia|lia|exact HR|exact Hf|].
    exists x', t'. repeat split; try assumption.
    eapply spells_text; [exact HS|reflexivity].
  Qed.

  Lemma short_P : forall s, short (P s).
  Proof. intros s. unfold short. cbn. lia. Qed.

  (* read the next token of HS : spells t (k :: ks) rest, HR : R x t, HF : length t < fuel *)
  Ltac next HS HR HF H :=
    let x' := fresh "x" in let t' := fresh "t" in let S' := fresh "HS" in
    let R' := fresh "HR" in let L' := fresh "HL" in let U' := fresh "HU" in
    let C' := fresh "HC" in let E' := fresh "HE" in let F' := fresh "HF" in
    destruct (tok_spells _ _ _ _ _ HS HR HF H) as (x' & t' & S' & R' & L' & U' & C' & E');
    rewrite E'; cbn [obind tok_code tok_text P];
    cbn [tok_text] in C'; try rewrite C';
    clear E' C'; pose proof (Nat.lt_trans _ _ _ L' HF) as F';
    clear HS; rename S' into HS; clear HR; rename R' into HR; clear HF; rename F' into HF.

  (* ---------------------------------------------------------------- *)
  (* the members *)

  Definition name_of (k : string) : option mkey :=
    if String.eqb k "rows" then Some KROW else if String.eqb k "cols" then Some KCOL
    else if String.eqb k "nnz" then Some KNNZ else if String.eqb k "flags" then Some KFLG
    else None.
  Definition hbit (k : mkey) (h : head) : bool :=
    match k with KROW => b_row h | KCOL => b_col h | KNNZ => b_nnz h | KFLG => b_flg h | KDTA => false end.
  Definition hset (k : mkey) (v : Z) (h : head) : head :=
    match k with
    | KROW => mkhead v (h_cols h) true (b_col h) (b_nnz h) (b_flg h)
    | KCOL => mkhead (h_rows h) v (b_row h) true (b_nnz h) (b_flg h)
    | KNNZ => mkhead (h_rows h) (h_cols h) (b_row h) (b_col h) true (b_flg h)
    | KFLG => mkhead (h_rows h) (h_cols h) (b_row h) (b_col h) (b_nnz h) true
    | KDTA => h
    end.

  (* ms is readable from head h to head h' *)
  Inductive heads : list (string * list Z) -> head -> head -> Prop :=
  | hs_nil : forall h, heads [] h h
  | hs_cons : forall k v ms h h' key n, name_of k = Some key -> hbit key h = false ->
      atoi v = Some n -> (length v <= 62)%nat -> heads ms (hset key n h) h' ->
      heads ((k, v) :: ms) h h'.

  Lemma name_cases : forall k key, name_of k = Some key ->
    (k = "rows"%string /\ key = KROW) \/ (k = "cols"%string /\ key = KCOL) \/
    (k = "nnz"%string /\ key = KNNZ) \/ (k = "flags"%string /\ key = KFLG).
  Proof.
    intros k key. unfold name_of.
    destruct (String.eqb_spec k "rows"); [intros E; inversion E; auto|].
    destruct (String.eqb_spec k "cols"); [intros E; inversion E; auto|].
    destruct (String.eqb_spec k "nnz"); [intros E; inversion E; auto|].
    destruct (String.eqb_spec k "flags"); [intros E; inversion E; auto 6|discriminate].
  Qed.

  Lemma short_key : forall k key, name_of k = Some key -> short (TStr (codes k)).
  Proof.
    intros k key H. unfold short.
    destruct (name_cases k key H) as [(-> & _) | [(-> & _) | [(-> & _) | (-> & _)]]]; cbn; lia.
  Qed.

  Lemma head_spells : forall ms h h' n first x t after rest,
    heads ms h h' -> R x t ->
    spells t (members ms ++ TStr (codes "data") :: P ":" :: after) rest ->
    (length t < fuel)%nat -> (length t < n)%nat ->
    exists x' t', read_head io n fuel first MKEY h x = Some (HDone h' x') /\
      spells t' after rest /\ R x' t' /\ (length t' < length t)%nat.
  Proof.
    induction ms as [|[k v] ms IH]; intros h h' n first x t after rest HH HR HS HF HN;
      inversion HH as [|? ? ? ? ? key nv Hk Hb Ha Hlen HH']; subst.
    - cbn [members flat_map app] in HS.
      destruct n as [|n]; [lia|]. cbn [read_head].
      next HS HR HF (ltac:(unfold short; cbn; lia) : short (TStr (codes "data"))).
      cbn -[read_head]. destruct n as [|n]; [lia|]. cbn [read_head].
      next HS HR HF (short_P ":").
      cbn -[read_head]. eexists _, _. split; [reflexivity|]. split; [exact HS|]. split; [exact HR|lia].
    - cbn [members flat_map app fst snd] in HS. fold (members ms) in HS.
      destruct n as [|n]; [lia|]. cbn [read_head].
      next HS HR HF (short_key k key Hk).
      destruct n as [|n]; [lia|].
      assert (G : exists x1 t1, read_head io (Datatypes.S n) fuel false (MCOLON key) h x0 = 
                    read_head io n fuel false (MVAL key) h x1 /\
                  spells t1 (TNum v :: P "," :: members ms ++ TStr (codes "data") :: P ":" :: after) rest /\
                  R x1 t1 /\ (length t1 < length t0)%nat).
      { cbn [read_head]. next HS HR HF (short_P ":"). 
        change (hd 0 (codes ":") =? cCOLON) with true. cbn [negb].
        exists x1, t1. split; [|split; [exact HS|split; [exact HR|exact HL0]]].
        destruct (name_cases k key Hk) as [(_ & ->) | [(_ & ->) | [(_ & ->) | (_ & ->)]]]; reflexivity. }
      destruct G as (x1 & t1 & EG & HS1 & HR1 & HL1).
      assert (HF1 : (length t1 < fuel)%nat) by lia.
      destruct n as [|n]; [lia|].
      assert (G : exists x2 t2, read_head io (Datatypes.S n) fuel false (MVAL key) h x1 =
                    read_head io n fuel false MSEP (hset key nv h) x2 /\
                  spells t2 (P "," :: members ms ++ TStr (codes "data") :: P ":" :: after) rest /\
                  R x2 t2 /\ (length t2 < length t1)%nat).
      { cbn [read_head]. next HS1 HR1 HF1 (Hlen : short (TNum v)).
        change (J_NUMBER =? J_NUMBER) with true. cbn [negb]. rewrite Ha. cbn [obind].
        eexists x2, t2. split; [|split; [exact HS1|split; [exact HR1|assumption]]].
        reflexivity. }
      destruct G as (x2 & t2 & EG2 & HS2 & HR2 & HL2).
      assert (HF2 : (length t2 < fuel)%nat) by lia.
      destruct n as [|n]; [lia|].
      assert (G : exists x3 t3, read_head io (Datatypes.S n) fuel false MSEP (hset key nv h) x2 =
                    read_head io n fuel false MKEY (hset key nv h) x3 /\
                  spells t3 (members ms ++ TStr (codes "data") :: P ":" :: after) rest /\
                  R x3 t3 /\ (length t3 < length t2)%nat).
      { cbn [read_head]. next HS2 HR2 HF2 (short_P ",").
        change (hd 0 (codes ",") =? cCOMMA) with true. cbn [negb].
        exists x3, t3. split; [reflexivity|]. split; [exact HS2|]. split; [exact HR2|assumption]. }
      destruct G as (x3 & t3 & EG3 & HS3 & HR3 & HL3).
      destruct (IH (hset key nv h) h' n false x3 t3 after rest HH' HR3 HS3) as (x4 & t4 & E4 & S4 & R4 & L4);
        [lia|lia|].
      exists x4, t4. split; [|split; [exact S4|split; [exact R4|lia]]].
      rewrite <- E4, <- EG3, <- EG2, <- EG.
      destruct (name_cases k key Hk) as [(-> & ->) | [(-> & ->) | [(-> & ->) | (-> & ->)]]];
        cbn [hbit] in Hb; cbn -[read_head]; rewrite Hb; reflexivity.
  Qed.

  (* ---------------------------------------------------------------- *)
  (* dense data *)

  Notation dm := (dmat T).

  Lemma commas_map : forall {A} (f : A -> list jtok) a l,
    commas (map f (a :: l)) = f a ++ flat_map (fun b => P "," :: f b) l.
  Proof.
    intros A f a l. revert a. induction l as [|b l IH]; intros a.
    - cbn. rewrite app_nil_r. reflexivity.
    - change (map f (a :: b :: l)) with (f a :: map f (b :: l)).
      cbn [commas]. destruct (map f (b :: l)) eqn:E; [discriminate|]. rewrite <- E, IH. reflexivity.
  Qed.

  (* storage filled from position k on *)
  Definition filled (A A' : dm) (k : Z) (vs : list (list Z)) : Prop :=
    d_rows A' = d_rows A /\ d_cols A' = d_cols A /\ d_step A' = d_step A /\
    forall q, d_mem A' q =
      if (k <=? q) && (q <? k + Z.of_nat (length vs)) then strtod (nth (Z.to_nat (q - k)) vs [])
      else d_mem A q.

  Lemma d_set_lin : forall (A : dm) k v, d_step A = d_rows A -> 0 < d_rows A ->
    0 <= k < d_rows A * d_cols A ->
    d_set A (k mod d_rows A) (k / d_rows A) v =
    Some (mkdmat (d_rows A) (d_cols A) (d_step A) (fun q => if q =? k then v else d_mem A q)).
  Proof.
    intros A k v Hs Hr Hk. unfold d_set. rewrite Hs.
    replace (k mod d_rows A + k / d_rows A * d_rows A) with k
      by (rewrite Z.mul_comm; pose proof (Z.div_mod k (d_rows A)); lia).
    rewrite (proj2 (Z.leb_le 0 k)), (proj2 (Z.ltb_lt k _)) by lia. reflexivity.
  Qed.

  Lemma filled_nil : forall A k, filled A A k [].
  Proof.
    intros A k. unfold filled. repeat split. intros q. cbn [length].
    destruct ((k <=? q) && (q <? k + Z.of_nat 0)) eqn:E; [bsplit; lia|reflexivity].
  Qed.

  Lemma filled_cons : forall (A A' : dm) k v vs,
    filled (mkdmat (d_rows A) (d_cols A) (d_step A) (fun q => if q =? k then strtod v else d_mem A q))
           A' (k + 1) vs ->
    filled A A' k (v :: vs).
  Proof.
    intros A A' k v vs (H1 & H2 & H3 & H4). repeat split; try assumption.
    intros q. rewrite H4. cbn [d_mem length].
    destruct (Z.eq_dec q k) as [-> | Hq].
    - rewrite (proj2 (Z.leb_gt (k + 1) k)) by lia. cbn [andb].
      rewrite Z.eqb_refl, (proj2 (Z.leb_le k k)), (proj2 (Z.ltb_lt k _)) by lia.
      replace (k - k) with 0 by lia. reflexivity.
    - rewrite (proj2 (Z.eqb_neq q k)) by exact Hq.
      destruct ((k + 1 <=? q) && (q <? k + 1 + Z.of_nat (length vs))) eqn:E.
      + bsplit. rewrite (proj2 (Z.leb_le k q)), (proj2 (Z.ltb_lt q _)) by lia. cbn [andb].
        replace (Z.to_nat (q - k)) with (Datatypes.S (Z.to_nat (q - (k + 1)))) by lia. reflexivity.
      + destruct ((k <=? q) && (q <? k + Z.of_nat (Datatypes.S (length vs)))) eqn:E2; [|reflexivity].
        bsplit. apply andb_false_iff in E. destruct E as [E | E]; bsplit; lia.
  Qed.

  (* the elements after the first *)
  Lemma elems_spells : forall vs cnt k (A : dm) x t after rest,
    R x t -> spells t (flat_map (fun v => [P ","; TNum v]) vs ++ P "]" :: after) rest ->
    (length t < fuel)%nat -> Forall (fun v => (length v <= 62)%nat) vs ->
    0 < k -> 0 < d_rows A -> d_step A = d_rows A ->
    k + Z.of_nat cnt = d_rows A * d_cols A -> (length vs <= cnt)%nat ->
    exists n A' x' t', read_elems strtod io cnt fuel A k x = Some (n, A', x') /\ 0 <= n /\
      filled A A' k vs /\ R x' t' /\ (length t' <= length t)%nat /\
      spells t' (P "]" :: after) rest.
  Proof.
    induction vs as [|v vs IH]; intros cnt k A x t after rest HR HS HF HV Hk Hr Hst Hcnt Hle.
    - cbn [flat_map app] in HS. destruct cnt as [|cnt].
      + exists k, A, x, t. cbn [read_elems]. split; [reflexivity|]. split; [lia|].
        split; [apply filled_nil|]. split; [exact HR|]. split; [lia|exact HS].
      + cbn [read_elems]. rewrite (proj2 (Z.ltb_lt 0 k)) by lia.
        next HS HR HF (short_P "]").
        change (hd 0 (codes "]") =? cCOMMA) with false. cbn [negb].
        change (hd 0 (codes "]") =? cRBR) with true. cbv iota.
        eexists k, A, _, _. split; [reflexivity|]. split; [lia|]. split; [apply filled_nil|].
        split; [apply HU; reflexivity|]. split; [cbn [length]; lia|].
        apply sp_punct; [cbn; tauto|exact HS].
    - cbn [flat_map app] in HS. cbn [length] in Hle. destruct cnt as [|cnt]; [lia|].
      inversion HV as [|? ? Hv HV']; subst.
      cbn [read_elems]. rewrite (proj2 (Z.ltb_lt 0 k)) by lia.
      next HS HR HF (short_P ",").
      change (hd 0 (codes ",") =? cCOMMA) with true. cbn [negb].
      next HS HR HF (Hv : short (TNum v)).
      change (J_NUMBER =? J_NUMBER) with true. change (J_NUMBER =? J_INT) with false.
      cbn [orb]. cbv iota. cbn [obind].
      rewrite d_set_lin by lia. cbn [obind].
      set (A1 := mkdmat _ _ _ _).
      destruct (IH cnt (k + 1) A1 x1 t1 after rest HR HS HF HV') as (n & A' & x' & t' & E & Hn & HFi & R' & L' & S');
        try (cbn [A1 d_rows d_cols d_step]; lia).
      exists n, A', x', t'. split; [exact E|]. split; [exact Hn|].
      split; [apply filled_cons; exact HFi|]. split; [exact R'|]. split; [lia|exact S'].
  Qed.

  Lemma data_dense : forall vs (A : dm) x t after rest,
    R x t -> spells t (commas (dense vs) ++ P "]" :: after) rest ->
    (length t < fuel)%nat -> Forall (fun v => (length v <= 62)%nat) vs ->
    0 <= d_rows A -> 0 <= d_cols A -> (0 < d_rows A * d_cols A -> d_step A = d_rows A) ->
    Z.of_nat (length vs) <= d_rows A * d_cols A -> (vs = [] -> d_rows A * d_cols A = 0) ->
    exists n A' x' t', read_data strtod io fuel A x = Some (n, A', x') /\ 0 <= n /\
      filled A A' 0 vs /\ R x' t' /\ (length t' <= length t)%nat /\
      spells t' (P "]" :: after) rest.
  Proof.
    intros vs A x t after rest HR HS HF HV Hr Hc Hst Hle Hnil. unfold read_data.
    destruct vs as [|v vs].
    - rewrite Hnil by reflexivity. cbn [Z.to_nat read_elems]. cbn [dense map commas app] in HS.
      exists 0, A, x, t. split; [reflexivity|]. split; [lia|]. split; [apply filled_nil|].
      split; [exact HR|]. split; [lia|exact HS].
    - cbn [length] in Hle. unfold dense in HS. rewrite commas_map in HS. cbn [app] in HS.
      inversion HV as [|? ? Hv HV']; subst.
      assert (Hr' : 0 < d_rows A) by nia.
      destruct (Z.to_nat (d_rows A * d_cols A)) as [|cnt] eqn:Ec; [lia|].
      cbn [read_elems]. change (0 <? 0) with false. cbv iota.
      next HS HR HF (Hv : short (TNum v)).
      change (J_NUMBER =? J_NUMBER) with true. change (J_NUMBER =? J_INT) with false.
      cbn [orb]. cbv iota. cbn [obind].
      rewrite d_set_lin by lia. cbn [obind].
      set (A1 := mkdmat _ _ _ _).
      destruct (elems_spells vs cnt (0 + 1) A1 x0 t0 after rest HR HS HF HV')
        as (n & A' & x' & t' & E & Hn & HFi & R' & L' & S');
        try (cbn [A1 d_rows d_cols d_step]; lia).
      exists n, A', x', t'. split; [exact E|]. split; [exact Hn|].
      split; [apply filled_cons; exact HFi|]. split; [exact R'|]. split; [lia|exact S'].
  Qed.

  (* ---------------------------------------------------------------- *)
  (* coordinates *)

  Definition ctoks (c : list Z * list Z * list Z) : list jtok :=
    [P "["; TNum (fst (fst c)); P ","; TNum (snd (fst c)); P ","; TNum (snd c); P "]"].
  Definition cvals (c : list Z * list Z * list Z) (r : Z * Z * T) : Prop :=
    atoi (fst (fst c)) = Some (fst (fst r)) /\ atoi (snd (fst c)) = Some (snd (fst r)) /\
    strtod (snd c) = snd r /\ (length (fst (fst c)) <= 62)%nat /\ (length (snd (fst c)) <= 62)%nat /\
    (length (snd c) <= 62)%nat.

  Lemma coord_spells : forall c r x t after rest,
    cvals c r -> R x t -> spells t (ctoks c ++ after) rest -> (length t < fuel)%nat ->
    exists x' t', read_coord strtod io fuel x = Some (Some r, x') /\ spells t' after rest /\
      R x' t' /\ (length t' < length t)%nat.
  Proof.
    intros c [[row col] v] x t after rest (Ha & Hb & Hc & L1 & L2 & L3) HR HS HF.
    cbn [fst snd] in Ha, Hb, Hc. unfold ctoks in HS. cbn [app] in HS.
    unfold read_coord.
    next HS HR HF (short_P "["). change (hd 0 (codes "[") =? cLBR) with true. cbn [negb].
    next HS HR HF (L1 : short (TNum (fst (fst c)))). change (J_NUMBER =? J_NUMBER) with true. cbn [negb].
    rewrite Ha. cbn [obind].
    next HS HR HF (short_P ","). change (hd 0 (codes ",") =? cCOMMA) with true. cbn [negb].
    next HS HR HF (L2 : short (TNum (snd (fst c)))). change (J_NUMBER =? J_NUMBER) with true. cbn [negb].
    rewrite Hb. cbn [obind].
    next HS HR HF (short_P ","). change (hd 0 (codes ",") =? cCOMMA) with true. cbn [negb].
    next HS HR HF (L3 : short (TNum (snd c))). change (J_NUMBER =? J_NUMBER) with true. cbn [negb].
    rewrite Hc.
    next HS HR HF (short_P "]"). change (hd 0 (codes "]") =? cRBR) with true. cbn [negb].
    eexists _, _. split; [reflexivity|]. split; [exact HS|]. split; [exact HR|lia].
  Qed.

  (* one coordinate: stored if inside *)
  Definition inside (A : dm) (r : Z * Z * T) : Prop :=
    0 <= fst (fst r) < d_rows A /\ 0 <= snd (fst r) < d_cols A.
  (* beyond the bound that the reader checks *)
  Definition beyond (A : dm) (r : Z * Z * T) : Prop :=
    fst (fst r) < 0 \/ fst (fst r) > d_rows A \/ snd (fst r) < 0 \/ snd (fst r) > d_cols A.

  Definition put1 (A : dm) (r : Z * Z * T) : dm :=
    if (0 <=? fst (fst r)) && (fst (fst r) <? d_rows A) && (0 <=? snd (fst r)) && (snd (fst r) <? d_cols A)
    then mkdmat (d_rows A) (d_cols A) (d_step A)
           (fun q => if q =? fst (fst r) + snd (fst r) * d_step A then snd r else d_mem A q)
    else A.

  Lemma put1_dims : forall A r, d_rows (put1 A r) = d_rows A /\ d_cols (put1 A r) = d_cols A /\
    d_step (put1 A r) = d_step A.
  Proof. intros A r. unfold put1. destruct (_ && _); repeat split. Qed.

  Lemma store_put1 : forall A r, d_step A = d_rows A -> inside A r \/ beyond A r ->
    (if (fst (fst r) >=? 0) && (fst (fst r) <=? d_rows A) && (snd (fst r) >=? 0) && (snd (fst r) <=? d_cols A)
     then d_set A (fst (fst r)) (snd (fst r)) (snd r) else Some A) = Some (put1 A r).
  Proof.
    intros A [[row col] v] Hs H. cbn [fst snd]. unfold inside, beyond, put1 in *. cbn [fst snd] in *.
    rewrite !Z.geb_leb.
    destruct ((0 <=? row) && (row <=? d_rows A) && (0 <=? col) && (col <=? d_cols A)) eqn:E.
    - bsplit. destruct H as [H|H]; [|lia].
      rewrite (proj2 (Z.leb_le 0 row)), (proj2 (Z.ltb_lt row _)), (proj2 (Z.leb_le 0 col)),
        (proj2 (Z.ltb_lt col _)) by lia. cbn [andb].
      unfold d_set. rewrite (proj2 (Z.leb_le 0 _)), (proj2 (Z.ltb_lt _ _)) by nia. reflexivity.
    - destruct ((0 <=? row) && (row <? d_rows A) && (0 <=? col) && (col <? d_cols A)) eqn:E2; [|reflexivity].
      bsplit. destruct H as [H|H]; [|lia].
      rewrite (proj2 (Z.leb_le 0 row)), (proj2 (Z.leb_le row _)), (proj2 (Z.leb_le 0 col)),
        (proj2 (Z.leb_le col _)) in E by lia. discriminate.
  Qed.

  Lemma coords_spells : forall cs rs c r n count (A : dm) x t after rest,
    cvals c r -> Forall2 cvals cs rs ->
    R x t -> spells t (ctoks c ++ flat_map (fun c => P "," :: ctoks c) cs ++ P "]" :: after) rest ->
    (length t < fuel)%nat -> (length t < n)%nat -> d_step A = d_rows A -> 0 <= count ->
    Forall (fun r => inside A r \/ beyond A r) (r :: rs) ->
    exists m x' t', read_coorddata strtod io n fuel A count x = Some (m, fold_left put1 (r :: rs) A, x') /\
      0 <= m /\ R x' t' /\ (length t' <= length t)%nat /\ spells t' (P "]" :: after) rest.
  Proof.
    induction cs as [|c1 cs IH]; intros rs c r n count A x t after rest Hc H2 HR HS HF HN Hst Hct HI;
      inversion H2; subst; (destruct n as [|n]; [lia|]); cbn [read_coorddata];
      inversion HI as [|? ? Hi HI']; subst.
    - destruct (coord_spells c r x t _ rest Hc HR HS HF) as (x1 & t1 & E1 & S1 & R1 & L1).
      rewrite E1. cbn [obind]. destruct r as [[row col] v].
      pose proof (store_put1 A (row, col, v) Hst Hi) as EP. cbn [fst snd] in EP. rewrite EP. cbn [obind].
      assert (F1 : (length t1 < fuel)%nat) by lia. cbn [flat_map app] in S1.
      next S1 R1 F1 (short_P "]"). change (hd 0 (codes "]") =? cRBR) with true. cbv iota.
      eexists _, _, _. cbn [fold_left]. split; [reflexivity|]. split; [lia|].
      split; [apply HU; reflexivity|]. split; [cbn [length]; lia|].
      apply sp_punct; [cbn; tauto|exact S1].
    - destruct (coord_spells c r x t _ rest Hc HR HS HF) as (x1 & t1 & E1 & S1 & R1 & L1).
      rewrite E1. cbn [obind]. destruct r as [[row col] v].
      pose proof (store_put1 A (row, col, v) Hst Hi) as EP. cbn [fst snd] in EP. rewrite EP. cbn [obind].
      assert (F1 : (length t1 < fuel)%nat) by lia. cbn [flat_map app] in S1.
      next S1 R1 F1 (short_P ","). change (hd 0 (codes ",") =? cRBR) with false.
      change (hd 0 (codes ",") =? cCOMMA) with true. cbn [negb]. cbv iota.
      destruct (put1_dims A (row, col, v)) as (D1 & D2 & D3).
      rewrite <- app_assoc in S1.
      destruct (IH l' c1 y n (count + 1) (put1 A (row, col, v)) x0 t0 after rest)
        as (m & x' & t' & E & Hm & R' & L' & S'); try assumption; try lia.
      { eapply Forall_impl; [|exact HI']. cbn. intros a. unfold inside, beyond. rewrite D1, D2. tauto. }
      exists m, x', t'. split; [exact E|]. split; [exact Hm|]. split; [exact R'|]. split; [lia|exact S'].
  Qed.

  Lemma data_coords : forall cs rs (A : dm) x t after rest,
    cs <> [] -> Forall2 cvals cs rs ->
    R x t -> spells t (commas (coords cs) ++ P "]" :: after) rest ->
    (length t < fuel)%nat -> 0 < d_rows A * d_cols A -> d_step A = d_rows A ->
    Forall (fun r => inside A r \/ beyond A r) rs ->
    exists m x' t', read_data strtod io fuel A x = Some (m, fold_left put1 rs A, x') /\
      0 <= m /\ R x' t' /\ (length t' <= length t)%nat /\ spells t' (P "]" :: after) rest.
  Proof.
    intros cs rs A x t after rest Hne H2 HR HS HF Hpos Hst HI. unfold read_data.
    destruct cs as [|c cs]; [congruence|]. inversion H2 as [|? r ? rs' Hc H2']; subst.
    unfold coords in HS. rewrite commas_map in HS. rewrite <- app_assoc in HS.
    destruct (Z.to_nat (d_rows A * d_cols A)) as [|cnt] eqn:Ec; [lia|].
    cbn [read_elems]. change (0 <? 0) with false. cbv iota.
    cbn [app] in HS. pose proof HF as HF0.
    next HS HR HF (short_P "["). change (hd 0 (codes "[") =? J_NUMBER) with false.
    change (hd 0 (codes "[") =? J_INT) with false. cbn [orb]. cbv iota.
    change (0 =? 0) with true. change (hd 0 (codes "[") =? cLBR) with true. cbn [andb].
    destruct (coords_spells cs rs' c r fuel 0 A (ungetc io x0 (hd 0 (codes "["))) (hd 0 (codes "[") :: t0) after rest)
      as (m & x' & t' & E & Hm & R' & L' & S'); try assumption; try (cbn [length]; lia);
      [apply HU; reflexivity|unfold ctoks; cbn [app]; apply sp_punct; [cbn; tauto|exact HS]|].
    exists m, x', t'. split; [exact E|]. split; [exact Hm|]. split; [exact R'|].
    split; [cbn [length] in L'; lia|exact S'].
  Qed.

  (* ---------------------------------------------------------------- *)
  (* whole documents *)

  Lemma json_read_spells : forall ms h A data x t rest,
    heads ms (mkhead 0 0 false false false false) h -> b_row h = true -> b_col h = true ->
    d_init zero (h_rows h) (h_cols h) = Some A ->
    R x t -> spells t (document ms data) rest -> (length t < fuel)%nat ->
    (forall x1 t1, R x1 t1 -> spells t1 (commas data ++ P "]" :: [P "}"]) rest -> (length t1 < fuel)%nat ->
       exists n A' x' t', read_data strtod io fuel A x1 = Some (n, A', x') /\ 0 <= n /\ R x' t' /\
         (length t' <= length t1)%nat /\ spells t' (P "]" :: [P "}"]) rest) ->
    exists x1 t1 n A' x' x'', R x1 t1 /\ spells t1 (commas data ++ P "]" :: [P "}"]) rest /\
      (length t1 < fuel)%nat /\
      read_data strtod io fuel A x1 = Some (n, A', x') /\
      json_read zero strtod io fuel x = Some (0, Some A', x'') /\ R x'' rest.
  Proof.
    intros ms h A data x t rest HH Hr Hc HA HR HS HF HD. unfold json_read. unfold document in HS.
    next HS HR HF (short_P "{"). change (hd 0 (codes "{") =? J_NULL) with false.
    change (hd 0 (codes "{") =? cLBC) with true. cbn [negb]. cbv iota.
    cbn [app] in HS.
    destruct (head_spells ms _ h fuel true x0 t0 _ rest HH HR HS HF HF) as (x1 & t1 & E1 & S1 & R1 & L1).
    rewrite E1. cbn [obind]. rewrite Hr, Hc. cbn [andb negb].
    assert (F1 : (length t1 < fuel)%nat) by lia.
    next S1 R1 F1 (short_P "["). change (hd 0 (codes "[") =? cLBR) with true. cbn [negb].
    rewrite HA. cbn [obind].
    destruct (HD x2 t2 R1 S1 F1) as (n & A' & x3 & t3 & E3 & Hn & R3 & L3 & S3).
    assert (F3 : (length t3 < fuel)%nat) by lia.
    pose proof R1 as R1'. pose proof S1 as S1'. pose proof F1 as F1'.
    rewrite E3. cbn [obind]. rewrite (proj2 (Z.ltb_ge n 0)) by lia.
    next S3 R3 F3 (short_P "]"). change (hd 0 (codes "]") =? cRBR) with true. cbn [negb].
    next S3 R3 F3 (short_P "}"). change (hd 0 (codes "}") =? cRBC) with true. cbv iota.
    apply spells_nil in S3. subst.
    exists x2, t2, n, A', x3, x5. split; [exact R1'|]. split; [exact S1'|]. split; [exact F1'|].
    split; [exact E3|]. split; [reflexivity|exact R3].
  Qed.
End Doc.
