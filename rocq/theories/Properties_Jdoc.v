(* Properties_Jdoc.v: C45, C46, C63, C64: matrices and strings as JSON documents. *)
From Coq Require Import String Ascii.
From Coq Require Import ZArith Bool List Lia.
From Verif Require Import MBase MIo SpecJson PIo PJson PJsonw.
Import ListNotations.
Local Open Scope Z_scope.

(* ------------------------------------------------------------------ *)
(* headers *)

Definition hval (k : mkey) (h : head) : Z :=
  match k with KROW => h_rows h | KCOL => h_cols h | _ => 0 end.

Lemma hset_bit : forall k k' v h, k <> KDTA -> hbit k (hset k' v h) = match k, k' with
  | KROW, KROW | KCOL, KCOL | KNNZ, KNNZ | KFLG, KFLG => true | _, _ => hbit k h end.
Proof. intros [] [] v h H; try reflexivity; congruence. Qed.

Lemma name_inj : forall a b k, name_of a = Some k -> name_of b = Some k -> a = b.
Proof.
  intros a b k Ha Hb.
  destruct (name_cases a k Ha) as [(-> & ->) | [(-> & ->) | [(-> & ->) | (-> & ->)]]];
  destruct (name_cases b _ Hb) as [(-> & E) | [(-> & E) | [(-> & E) | (-> & E)]]]; congruence.
Qed.

Lemma heads_ex : forall ms h, NoDup (map fst ms) ->
  (forall k v, In (k, v) ms -> exists key, name_of k = Some key /\ hbit key h = false /\
     (exists n, atoi v = Some n) /\ (length v <= 62)%nat) ->
  exists h', heads ms h h' /\
    forall key k, (key = KROW \/ key = KCOL) -> name_of k = Some key ->
      (forall v n, In (k, v) ms -> atoi v = Some n -> hval key h' = n /\ hbit key h' = true) /\
      ((forall v, ~ In (k, v) ms) -> hval key h' = hval key h /\ hbit key h' = hbit key h).
Proof.
  induction ms as [|[k v] ms IH]; intros h ND HM.
  - exists h. split; [constructor|]. intros key k _ _. split; [intros v n []|intros _; split; reflexivity].
  - inversion ND as [|? ? Hni ND']; subst. cbn [fst] in Hni.
    destruct (HM k v (or_introl eq_refl)) as (key & Hk & Hb & (n & Hn) & Hl).
    assert (HM' : forall k' v', In (k', v') ms -> exists key', name_of k' = Some key' /\
       hbit key' (hset key n h) = false /\ (exists n, atoi v' = Some n) /\ (length v' <= 62)%nat).
    { intros k' v' Hin. destruct (HM k' v' (or_intror Hin)) as (key' & Hk' & Hb' & Hn' & Hl').
      exists key'. split; [exact Hk'|]. split; [|split; assumption].
      assert (key' <> key).
      { intros ->. apply Hni. rewrite (name_inj k k' key Hk Hk').
        apply (in_map fst) in Hin. exact Hin. }
      rewrite hset_bit; [|intros ->; destruct (name_cases _ _ Hk') as [(_ & E)|[(_ & E)|[(_ & E)|(_ & E)]]]; discriminate].
      destruct key', key; try assumption; congruence. }
    destruct (IH (hset key n h) ND' HM') as (h' & HH & HV).
    exists h'. split; [econstructor; eassumption|].
    intros key1 k1 Hkey1 Hk1. destruct (HV key1 k1 Hkey1 Hk1) as (V1 & V2).
    assert (Hnk : forall v', In (k1, v') ms -> k1 <> k).
    { intros v' Hin ->. apply Hni. apply (in_map fst) in Hin. exact Hin. }
    split.
    + intros v1 n1 [Hin|Hin] Hn1; [|apply (V1 v1 n1 Hin Hn1)].
      inversion Hin; subst. rewrite Hk in Hk1. inversion Hk1; subst.
      destruct V2 as (V2 & V3); [intros v' Hv'; apply (Hnk v' Hv'); reflexivity|].
      rewrite V2, V3. rewrite Hn in Hn1. inversion Hn1; subst.
      destruct Hkey1 as [-> | ->]; split; reflexivity.
    + intros Hno. destruct V2 as (V2 & V3); [intros v' Hv'; apply (Hno v'); right; exact Hv'|].
      rewrite V2, V3.
      assert (key1 <> key).
      { intros ->. apply (Hno v). left. rewrite (name_inj k1 k key Hk1 Hk). reflexivity. }
      destruct Hkey1 as [-> | ->]; destruct key; try congruence; split; reflexivity.
Qed.

Lemma header_heads : forall ms r c, header ms r c ->
  Forall (fun m => (length (snd m) <= 62)%nat) ms ->
  exists h, heads ms (mkhead 0 0 false false false false) h /\ b_row h = true /\ b_col h = true /\
    h_rows h = r /\ h_cols h = c.
Proof.
  intros ms r c (ND & HM & (vr & Ir & Ar) & (vc & Ic & Ac)) HL.
  destruct (heads_ex ms (mkhead 0 0 false false false false) ND) as (h & HH & HV).
  { intros k v Hin. destruct (HM k v Hin) as (Hk & Hn).
    rewrite Forall_forall in HL. specialize (HL _ Hin). cbn [snd] in HL.
    destruct Hk as [-> | [-> | [-> | ->]]]; eexists; (split; [reflexivity|split; [reflexivity|split; assumption]]). }
  exists h. split; [exact HH|].
  destruct (HV KROW "rows"%string (or_introl eq_refl) eq_refl) as (V1 & _).
  destruct (HV KCOL "cols"%string (or_intror eq_refl) eq_refl) as (V2 & _).
  destruct (V1 vr r Ir Ar) as (E1 & E2). destruct (V2 vc c Ic Ac) as (E3 & E4).
  cbn in *. auto.
Qed.

Lemma d_init_ok : forall {T} (zero : T) r c, 0 <= r -> 0 <= c -> r * c < 2 ^ 31 ->
  exists A, d_init zero r c = Some A /\ d_rows A = r /\ d_cols A = c /\
    (0 < r * c -> d_step A = r) /\ forall q, d_mem A q = zero.
Proof.
  intros T zero r c Hr Hc Ho. unfold d_init, armas_init.
  destruct ((r <=? 0) || (c <=? 0)) eqn:E.
  - cbn [obind]. eexists. split; [reflexivity|]. cbn.
    rewrite (proj2 (Z.ltb_ge r 0)), (proj2 (Z.ltb_ge c 0)) by lia.
    split; [reflexivity|]. split; [reflexivity|]. split; [|reflexivity].
    apply orb_true_iff in E. destruct E; bsplit; nia.
  - bsplit. unfold i32. rewrite (proj2 (Z.leb_le _ _)), (proj2 (Z.ltb_lt _ _)) by nia.
    cbn [andb obind]. eexists. split; [reflexivity|]. cbn. auto.
Qed.

(* ================================================================== *)
(* C45: documents with all elements, column by column *)

(* Any text of such a document, with any white space, on any stream.  Elements not given (the
   array may be shorter) are zero. *)
Theorem C45_read_dense : forall {T} (zero : T) strtod {S} (io : stream S) R, is_source io R ->
  forall ms r c vs text rest x fuel,
  header ms r c -> 0 <= r -> 0 <= c -> r * c < 2 ^ 31 ->
  Z.of_nat (length vs) <= r * c -> (vs = [] -> r * c = 0) ->
  Forall (fun m => (length (snd m) <= 62)%nat) ms -> Forall (fun v => (length v <= 62)%nat) vs ->
  R x text -> spells text (document ms (dense vs)) rest -> (length text < fuel)%nat ->
  exists A x', json_read zero strtod io fuel x = Some (0, Some A, x') /\ R x' rest /\
    d_rows A = r /\ d_cols A = c /\
    forall i j, 0 <= i < r -> 0 <= j < c ->
      d_elt A i j = if i + j * r <? Z.of_nat (length vs)
                    then strtod (nth (Z.to_nat (i + j * r)) vs []) else zero.
Proof.
  intros T zero strtod S io R src ms r c vs text rest x fuel HH Hr Hc Ho Hle Hnil HLm HLv HR HS Hf.
  destruct (header_heads ms r c HH HLm) as (h & H1 & H2 & H3 & H4 & H5).
  destruct (d_init_ok zero r c Hr Hc Ho) as (A0 & HA & D1 & D2 & D3 & D4).
  assert (HD : forall x1 t1, R x1 t1 -> spells t1 (commas (dense vs) ++ P "]" :: [P "}"]) rest ->
    (length t1 < fuel)%nat ->
    exists n A' x' t', read_data strtod io fuel A0 x1 = Some (n, A', x') /\ 0 <= n /\
      filled strtod A0 A' 0 vs /\ R x' t' /\ (length t' <= length t1)%nat /\ spells t' (P "]" :: [P "}"]) rest).
  { intros x1 t1 R1 S1 F1.
    apply (data_dense strtod io R src fuel vs A0 x1 t1 [P "}"] rest R1 S1 F1 HLv); rewrite ?D1, ?D2; assumption. }
  destruct (json_read_spells zero strtod io R src fuel ms h A0 (dense vs) x text rest H1 H2 H3)
    as (x1 & t1 & n & A' & x' & x'' & R1 & S1 & F1 & E1 & E2 & R2); try assumption.
  { rewrite H4, H5. exact HA. }
  { intros x1 t1 R1 S1 F1. destruct (HD x1 t1 R1 S1 F1) as (n & A' & x' & t' & Q1 & Q2 & Q3 & Q4 & Q5 & Q6).
    exists n, A', x', t'. auto. }
  destruct (HD x1 t1 R1 S1 F1) as (n' & A'' & x3 & t3 & Q1 & _ & (G1 & G2 & G3 & G4) & _).
  rewrite E1 in Q1. inversion Q1; subst n' A'' x3.
  exists A', x''. split; [exact E2|]. split; [exact R2|]. split; [congruence|]. split; [congruence|].
  intros i j Hi Hj. unfold d_elt. rewrite G3, D3 by nia. rewrite G4.
  rewrite (proj2 (Z.leb_le 0 _)) by nia. cbn [andb]. replace (0 + Z.of_nat (length vs)) with (Z.of_nat (length vs)) by lia.
  destruct (i + j * r <? Z.of_nat (length vs)); [f_equal; f_equal; lia|apply D4].
Qed.
Print Assumptions C45_read_dense.

Section Roundtrip.
  Context {T : Type} (zero : T) (strtod : list Z -> T) (fmtg : T -> list Z) (isfinite : T -> bool).

  (* the formatted elements in the order in which they are written *)
  Definition vals (A : dmat T) : list (list Z) :=
    map (fun n => fmtg (d_elt A (Z.of_nat n mod d_rows A) (Z.of_nat n / d_rows A)))
        (seq 0 (Z.to_nat (d_rows A * d_cols A))).
  Definition hdr (A : dmat T) (flags : Z) : list (string * list Z) :=
    [("rows"%string, dec (d_rows A)); ("cols"%string, dec (d_cols A))] ++
    (if flags =? 0 then [] else [("flags"%string, dec flags)]).
  Definition mtext (m : string * list Z) : list Z := 34 :: codes (fst m) ++ 34 :: 58 :: snd m ++ [44].
  Fixpoint elemtext (vs : list (list Z)) : list Z :=
    match vs with [] => [] | [v] => v | v :: r => v ++ 44 :: elemtext r end.
  Definition doctext (A : dmat T) (flags : Z) : list Z :=
    codes "{" ++ flat_map mtext (hdr A flags) ++ 34 :: codes "data" ++ 34 :: 58 :: 91 :: elemtext (vals A) ++
    codes "]}".

  Lemma quoted_plain : forall s, Forall (fun c => 1 <= c <= 255 /\ c <> 34 /\ c <> 92) s -> quoted s s.
  Proof using.
    clear. induction 1 as [|c s (H1 & H2 & H3) HF IH]; constructor; assumption. Qed.

  Lemma key_plain : forall k, In k ["rows"; "cols"; "nnz"; "flags"; "data"]%string ->
    quoted (codes k) (codes k) /\ flat_map escape (codes k) = codes k /\
    Forall (fun c => 0 <= c <= 127) (codes k) /\ cstr (codes k) = codes k.
  Proof using.
    clear.
    intros k Hk. cbn in Hk.
    repeat match type of Hk with _ \/ _ => destruct Hk as [Hk | Hk] | False => destruct Hk end; subst k;
      (split; [apply quoted_plain; vm_compute; repeat constructor; try discriminate|
       split; [vm_compute; reflexivity|split; [vm_compute; repeat constructor; discriminate|vm_compute; reflexivity]]]).
  Qed.

  Lemma elem_spells : forall vs after ks rest, Forall number vs ->
    spells (93 :: after) ks rest ->
    spells (elemtext vs ++ 93 :: after) (commas (dense vs) ++ ks) rest.
  Proof using.
    clear.
    induction vs as [|v vs IH]; intros after ks rest HF HS; [exact HS|].
    inversion HF; subst. destruct vs as [|w vs].
    - cbn [elemtext dense map commas app]. apply sp_num; [assumption|cbn; auto 10|exact HS].
    - change (elemtext (v :: w :: vs)) with (v ++ 44 :: elemtext (w :: vs)).
      change (commas (dense (v :: w :: vs))) with (TNum v :: P "," :: commas (dense (w :: vs))).
      cbn [app]. rewrite <- app_assoc. cbn [app]. apply sp_num; [assumption|cbn; auto 10|].
      apply sp_punct; [cbn; auto 10|]. apply IH; assumption.
  Qed.

  Lemma member_spells : forall ms t ks rest,
    Forall (fun m => In (fst m) ["rows"; "cols"; "nnz"; "flags"; "data"]%string /\ number (snd m)) ms ->
    spells t ks rest -> spells (flat_map mtext ms ++ t) (members ms ++ ks) rest.
  Proof using.
    clear.
    induction ms as [|[k v] ms IH]; intros t ks rest HF HS; [exact HS|].
    inversion HF as [|? ? (Hk & Hv) HF']; subst. cbn [fst snd] in *.
    cbn [flat_map members]. unfold mtext at 1. cbn [fst snd app].
    rewrite <- !app_assoc. cbn [app]. rewrite <- !app_assoc. cbn [app].
    apply sp_str; [apply (key_plain k Hk)|]. apply sp_punct; [cbn; auto 10|].
    apply sp_num; [exact Hv|cbn; auto 10|]. apply sp_punct; [cbn; auto 10|]. apply IH; assumption.
  Qed.

  Lemma hdr_names : forall A flags, Forall (fun m => In (fst m) ["rows"; "cols"; "nnz"; "flags"; "data"]%string /\ number (snd m)) (hdr A flags).
  Proof using T.
    clear zero strtod isfinite fmtg.
    intros A flags. unfold hdr. destruct (flags =? 0); cbn [app];
      repeat (apply Forall_cons; [split; [cbn; tauto|apply dec_number]|]); apply Forall_nil.
  Qed.

  Definition small (n : Z) : Prop := - 2 ^ 31 <= n < 2 ^ 31.

  Lemma hdr_header : forall (A : dmat T) flags, small (d_rows A) -> small (d_cols A) -> small flags ->
    header (hdr A flags) (d_rows A) (d_cols A).
  Proof using T.
    clear zero strtod isfinite fmtg.
    intros A flags Hr Hc Hf. unfold header, hdr.
    assert (AT : forall n, small n -> exists k, atoi (dec n) = Some k)
      by (intros n Hn; exists n; apply atoi_dec; exact Hn).
    split; [|split; [|split]].
    - destruct (flags =? 0); cbn; repeat constructor; cbn; intuition discriminate.
    - intros k v Hin. destruct (flags =? 0); cbn in Hin;
        repeat match type of Hin with _ \/ _ => destruct Hin as [Hin | Hin] | False => destruct Hin end;
        inversion Hin; subst; (split; [auto 10|apply AT; assumption]).
    - exists (dec (d_rows A)). split; [left; reflexivity|apply atoi_dec; exact Hr].
    - exists (dec (d_cols A)). split; [right; left; reflexivity|apply atoi_dec; exact Hc].
  Qed.

  Lemma hdr_short : forall (A : dmat T) flags, small (d_rows A) -> small (d_cols A) -> small flags ->
    Forall (fun m => (length (snd m) <= 62)%nat) (hdr A flags).
  Proof using T.
    clear zero strtod isfinite fmtg.
    intros A flags Hr Hc Hf. unfold hdr. destruct (flags =? 0); cbn [app];
      repeat (apply Forall_cons; [cbn [snd]; apply dec_short; assumption|]); apply Forall_nil.
  Qed.

  Lemma doc_spells : forall A flags rest, Forall number (vals A) ->
    spells (doctext A flags ++ rest) (document (hdr A flags) (dense (vals A))) rest.
  Proof using T fmtg.
    clear zero strtod isfinite.
    intros A flags rest HN. unfold doctext, document.
    replace ((codes "{" ++ flat_map mtext (hdr A flags) ++ 34 :: codes "data" ++ 34 :: 58 :: 91 :: elemtext (vals A) ++ codes "]}") ++ rest)
      with (123 :: flat_map mtext (hdr A flags) ++ (34 :: codes "data" ++ 34 :: 58 :: 91 :: elemtext (vals A) ++ 93 :: 125 :: rest))
      by (cbn; rewrite <- !app_assoc; cbn; rewrite <- !app_assoc; reflexivity).
    apply sp_punct; [cbn; auto|]. apply member_spells; [apply hdr_names|].
    cbn [app]. apply sp_str; [apply (key_plain "data"); cbn; auto 10|].
    apply sp_punct; [cbn; auto 10|]. apply sp_punct; [cbn; auto 10|].
    apply elem_spells; [exact HN|]. apply sp_punct; [cbn; auto 10|]. apply sp_punct; [cbn; auto 10|].
    apply sp_done.
  Qed.

  Lemma vals_length : forall A, 0 <= d_rows A * d_cols A -> Z.of_nat (length (vals A)) = d_rows A * d_cols A.
  Proof using T fmtg.
    clear zero strtod isfinite. intros A H. unfold vals. rewrite map_length, seq_length. lia. Qed.

  Lemma vals_nth : forall A k, 0 < d_rows A -> 0 <= k < d_rows A * d_cols A ->
    nth (Z.to_nat k) (vals A) [] = fmtg (d_elt A (k mod d_rows A) (k / d_rows A)).
  Proof using T fmtg.
    clear zero strtod isfinite.
    intros A k Hr H. unfold vals.
    rewrite (nth_indep _ [] (fmtg (d_elt A (Z.of_nat 0 mod d_rows A) (Z.of_nat 0 / d_rows A))))
      by (rewrite map_length, seq_length; lia).
    rewrite (map_nth (fun n => fmtg (d_elt A (Z.of_nat n mod d_rows A) (Z.of_nat n / d_rows A)))).
    rewrite seq_nth by lia. cbn [Nat.add]. rewrite Z2Nat.id by lia. reflexivity.
  Qed.

  Section Sink.
    Context {S : Type} (io : stream S) (W : S -> list Z -> nat -> Prop) (snk : is_sink io W).

    Lemma key_writes : forall k, In k ["rows"; "cols"; "nnz"; "flags"; "data"]%string ->
      writes W (write_key io (codes k)) (34 :: codes k ++ [34]).
    Proof using S io W snk.
      clear zero strtod isfinite fmtg.
      intros k Hk. destruct (key_plain k Hk) as (_ & E1 & H2 & E3). unfold write_key.
      assert (E : flat_map escape (strchars (codes k) (Z.of_nat (length (codes k)))) = codes k).
      { unfold strchars. rewrite Nat2Z.id, firstn_all, E3. exact E1. }
      pose proof (string_writes io W snk (codes k) (Z.of_nat (length (codes k)))) as HW.
      rewrite E in HW. exact (HW H2).
    Qed.

    Lemma punct_writes : forall c, 0 <= c <= 127 -> writes W (json_write_punct io c) [c].
    Proof using S io W snk.
      clear zero strtod isfinite fmtg. intros c Hc. apply puts_writes; [exact snk|]. constructor; [exact Hc|constructor]. Qed.

    Lemma int_writes : forall n, writes W (json_write_int io n) (dec n).
    Proof using S io W snk.
      clear zero strtod isfinite fmtg. intros n. apply puts_writes; [exact snk|]. apply number_ascii. apply dec_number. Qed.

    Lemma elems_writes : forall (A : dmat T) cnt n,
      (forall m, isfinite (d_elt A (m mod d_rows A) (m / d_rows A)) = true) ->
      (forall m, number (fmtg (d_elt A (m mod d_rows A) (m / d_rows A)))) ->
      (cnt > 0)%nat ->
      writes W (write_elems fmtg isfinite io cnt A (Z.of_nat n))
        ((if (0 <? n)%nat then [44] else []) ++ elemtext
          (map (fun n => fmtg (d_elt A (Z.of_nat n mod d_rows A) (Z.of_nat n / d_rows A))) (seq n cnt))).
    Proof using T fmtg isfinite S io W snk.
      clear zero strtod.
      intros A cnt. induction cnt as [|cnt IH]; intros n HFi HN Hpos; [lia|].
      cbn [write_elems seq map].
      assert (C1 : writes W (fun x => if 0 <? Z.of_nat n then json_write_punct io cCOMMA x else (0, x))
                     (if (0 <? n)%nat then [44] else [])).
      { destruct (Nat.ltb_spec 0 n).
        - rewrite (proj2 (Z.ltb_lt 0 _)) by lia. apply punct_writes. unfold cCOMMA; lia.
        - rewrite (proj2 (Z.ltb_ge 0 _)) by lia. apply skip_writes. }
      assert (C2 : writes W (json_write_number fmtg isfinite io (d_elt A (Z.of_nat n mod d_rows A) (Z.of_nat n / d_rows A)))
                     (fmtg (d_elt A (Z.of_nat n mod d_rows A) (Z.of_nat n / d_rows A)))).
      { unfold json_write_number. rewrite HFi. apply puts_writes; [exact snk|]. apply number_ascii. apply HN. }
      destruct cnt as [|cnt].
      - cbn [seq map elemtext].
        apply seqw_writes; [exact C1|].
        match goal with |- writes _ _ ?v => rewrite <- (app_nil_r v) end.
        apply seqw_writes; [exact C2|]. cbn [write_elems]. apply skip_writes.
      - apply seqw_writes; [exact C1|].
        cbn [seq map]. 
        match goal with |- writes _ _ (elemtext (?a :: ?b :: ?r)) =>
          change (elemtext (a :: b :: r)) with (a ++ 44 :: elemtext (b :: r)) end.
        apply seqw_writes; [exact C2|].
        replace (Z.of_nat n + 1) with (Z.of_nat (Datatypes.S n)) by lia.
        exact (IH (Datatypes.S n) HFi HN ltac:(lia)).
    Qed.

    Lemma doc_writes : forall A flags,
      (forall m, isfinite (d_elt A (m mod d_rows A) (m / d_rows A)) = true) ->
      (forall m, number (fmtg (d_elt A (m mod d_rows A) (m / d_rows A)))) ->
      writes W (json_write fmtg isfinite io A flags) (doctext A flags).
    Proof using T fmtg isfinite S io W snk.
      clear zero strtod.
      intros A flags HFi HN. unfold json_write.
      replace (doctext A flags) with
        ([123] ++ (34 :: codes "rows" ++ [34]) ++ [58] ++ dec (d_rows A) ++ [44] ++
         (34 :: codes "cols" ++ [34]) ++ [58] ++ dec (d_cols A) ++ [44] ++
         (if flags =? 0 then [] else (34 :: codes "flags" ++ [34]) ++ [58] ++ dec flags ++ [44]) ++
         (34 :: codes "data" ++ [34]) ++ [58] ++ [91] ++ elemtext (vals A) ++ [93] ++ [125]).
      2:{ unfold doctext, hdr, mtext. destruct (flags =? 0); cbn; repeat (rewrite <- !app_assoc; cbn); reflexivity. }
      unfold cLBC, cRBC, cLBR, cRBR, cCOLON, cCOMMA.
      match goal with |- writes W (fun x => ?f x) ?l => change (writes W f l) end.
      repeat first [apply seqw_writes | apply punct_writes; lia | apply int_writes |
                    apply key_writes; cbn; tauto].
      - destruct (flags =? 0); [apply skip_writes|].
        match goal with |- writes W (fun x => ?f x) ?l => change (writes W f l) end.
      repeat first [apply seqw_writes | apply punct_writes; lia | apply int_writes |
                    apply key_writes; cbn; tauto].
      - destruct (Z.to_nat (d_rows A * d_cols A)) as [|cnt] eqn:E.
        + cbn [write_elems]. unfold vals. rewrite E. cbn [seq map elemtext]. apply skip_writes.
        + unfold vals. rewrite E. exact (elems_writes A (Datatypes.S cnt) 0 HFi HN ltac:(lia)).
    Qed.
  End Sink.

  (* What is written is a text that reads back as the same matrix, on any kind of stream. *)
  Theorem C45_roundtrip_partial : forall A flags,
    0 <= d_rows A < 2 ^ 31 -> 0 <= d_cols A < 2 ^ 31 -> d_rows A * d_cols A < 2 ^ 31 -> small flags ->
    (forall v, isfinite v = true) -> (forall v, number (fmtg v) /\ (length (fmtg v) <= 62)%nat) ->
    (forall v, strtod (fmtg v) = v) ->
    exists text,
      (forall S (io : stream S) W, is_sink io W -> forall x out n, W x out (length text + n)%nat ->
         exists x', json_write fmtg isfinite io A flags x = (0, x') /\ W x' (out ++ text) n) /\
      (forall S (io : stream S) R, is_source io R -> forall rest x fuel,
         R x (text ++ rest) -> (length (text ++ rest) < fuel)%nat ->
         exists A' x', json_read zero strtod io fuel x = Some (0, Some A', x') /\ R x' rest /\
           d_rows A' = d_rows A /\ d_cols A' = d_cols A /\
           forall i j, 0 <= i < d_rows A -> 0 <= j < d_cols A -> d_elt A' i j = d_elt A i j).
  Proof.
    intros A flags Hr Hc Ho Hfl HFi HN HRT. exists (doctext A flags). split.
    - intros S io W snk x out n H. apply (doc_writes io W snk A flags); auto. intros m; apply HN.
    - intros S io R src rest x fuel HR Hf.
      assert (HV : Forall number (vals A)).
      { unfold vals. apply Forall_forall. intros v Hv. apply in_map_iff in Hv.
        destruct Hv as (n & <- & _). apply HN. }
      destruct (C45_read_dense zero strtod io R src (hdr A flags) (d_rows A) (d_cols A) (vals A)
                  (doctext A flags ++ rest) rest x fuel) as (A' & x' & E1 & E2 & E3 & E4 & E5);
        try assumption; try lia.
      + apply hdr_header; unfold small in *; lia.
      + rewrite vals_length by nia. lia.
      + intros E. pose proof (vals_length A ltac:(nia)) as L. rewrite E in L. cbn in L. lia.
      + apply hdr_short; unfold small in *; lia.
      + unfold vals. apply Forall_forall. intros v Hv. apply in_map_iff in Hv.
        destruct Hv as (n & <- & _). apply HN.
      + apply doc_spells. exact HV.
      + exists A', x'. split; [exact E1|]. split; [exact E2|]. split; [exact E3|]. split; [exact E4|].
        intros i j Hi Hj. rewrite E5 by assumption. rewrite vals_length by nia.
        rewrite (proj2 (Z.ltb_lt _ _)) by nia. rewrite vals_nth by nia. rewrite HRT.
        rewrite Z.mod_add, Z.mod_small by lia. rewrite Z.div_add, Z.div_small by lia. reflexivity.
  Qed.

  (* An element that is not finite is written as nothing: the document cannot be read back. *)
  Theorem C45_nonfinite_refuted : forall v, isfinite v = false ->
    let A := mkdmat 1 1 1 (fun _ => v) in
    exists text, json_write fmtg isfinite file_stream A 0 ([], []) = (0, ([], text)) /\
      json_read zero strtod file_stream 100 (text, []) = Some (-1, None, (codes "}", [])).
  Proof.
    intros v Hv A. exists (codes "{" ++ 34 :: codes "rows" ++ 34 :: codes ":1," ++ 34 :: codes "cols" ++
      34 :: codes ":1," ++ 34 :: codes "data" ++ 34 :: codes ":[]}"). split.
    - unfold A. lazy. rewrite Hv. reflexivity.
    - vm_compute. reflexivity.
  Qed.
End Roundtrip.
Print Assumptions C45_roundtrip_partial.
Print Assumptions C45_nonfinite_refuted.

(* Files: the document is appended to the output; the input is read up to its end. *)
Theorem C45_file : forall {T} (zero : T) strtod fmtg isfinite A flags,
  0 <= d_rows A < 2 ^ 31 -> 0 <= d_cols A < 2 ^ 31 -> d_rows A * d_cols A < 2 ^ 31 -> small flags ->
  (forall v, isfinite v = true) -> (forall v, number (fmtg v) /\ (length (fmtg v) <= 62)%nat) ->
  (forall v, strtod (fmtg v) = v) ->
  forall inp out, exists text,
    json_write fmtg isfinite file_stream A flags (inp, out) = (0, (inp, out ++ text)) /\
    forall rest out2 fuel, Forall (fun c => 0 <= c <= 255) (text ++ rest) -> (length (text ++ rest) < fuel)%nat ->
    exists A' x', json_read zero strtod file_stream fuel (text ++ rest, out2) = Some (0, Some A', x') /\
      fst x' = rest /\ d_rows A' = d_rows A /\ d_cols A' = d_cols A /\
      forall i j, 0 <= i < d_rows A -> 0 <= j < d_cols A -> d_elt A' i j = d_elt A i j.
Proof.
  intros T zero strtod fmtg isfinite A flags Hr Hc Ho Hfl HFi HN HRT inp out.
  destruct (C45_roundtrip_partial zero strtod fmtg isfinite A flags Hr Hc Ho Hfl HFi HN HRT) as (text & HW & HRd).
  exists text. split.
  - destruct (HW file file_stream (file_W2 inp) (file_sink2 inp) (inp, out) out 0%nat eq_refl) as (x' & E & H).
    unfold file_W2 in H. subst x'. exact E.
  - intros rest out2 fuel HF Hf.
    destruct (HRd file file_stream file_R file_source rest (text ++ rest, out2) fuel) as (A' & x' & E & (H & _) & H2);
      [split; [reflexivity|exact HF]|exact Hf|].
    exists A', x'. split; [exact E|]. split; [exact H|exact H2].
Qed.
Print Assumptions C45_file.

(* Buffers: with enough room the document is stored from the current position on; after going
   back to that position it is read. *)
Theorem C45_buffer : forall {T} (zero : T) strtod fmtg isfinite A flags,
  0 <= d_rows A < 2 ^ 31 -> 0 <= d_cols A < 2 ^ 31 -> d_rows A * d_cols A < 2 ^ 31 -> small flags ->
  (forall v, isfinite v = true) -> (forall v, number (fmtg v) /\ (length (fmtg v) <= 62)%nat) ->
  (forall v, strtod (fmtg v) = v) ->
  exists size, forall b p, (p + size <= length b)%nat -> Forall (fun c => 0 <= c <= 127) b ->
  exists b', json_write fmtg isfinite wbuf_stream A flags (mkws b (Z.of_nat p)) =
               (0, mkws b' (Z.of_nat (p + size))) /\
    firstn p b' = firstn p b /\ skipn (p + size) b' = skipn (p + size) b /\
    forall fuel, (length b < fuel)%nat ->
    exists A' x', json_read zero strtod wbuf_stream fuel (mkws b' (Z.of_nat p)) = Some (0, Some A', x') /\
      d_rows A' = d_rows A /\ d_cols A' = d_cols A /\
      forall i j, 0 <= i < d_rows A -> 0 <= j < d_cols A -> d_elt A' i j = d_elt A i j.
Proof.
  intros T zero strtod fmtg isfinite A flags Hr Hc Ho Hfl HFi HN HRT.
  set (text := doctext fmtg A flags).
  assert (HV : Forall number (vals fmtg A)).
  { unfold vals. apply Forall_forall. intros v Hv. apply in_map_iff in Hv.
    destruct Hv as (n & <- & _). apply HN. }
  assert (TA : Forall (fun c => 0 <= c <= 127) text).
  { assert (EA : forall vs, Forall number vs -> Forall (fun c => 0 <= c <= 127) (elemtext vs)).
    { induction vs as [|v vs IH]; intros H; [constructor|]. inversion H; subst.
      destruct vs as [|w vs]; [apply number_ascii; assumption|].
      change (elemtext (v :: w :: vs)) with (v ++ 44 :: elemtext (w :: vs)).
      apply Forall_app; split; [apply number_ascii; assumption|]. constructor; [lia|]. apply IH; assumption. }
    unfold text, doctext. apply Forall_app; split; [repeat constructor; discriminate|].
    apply Forall_app; split.
    - pose proof (hdr_names A flags) as HH. induction HH as [|m ms (Hk & Hn) HH IH]; [constructor|].
      cbn [flat_map]. apply Forall_app; split; [|exact IH]. unfold mtext.
      constructor; [lia|]. apply Forall_app; split; [apply (key_plain _ Hk)|].
      constructor; [lia|]. constructor; [lia|]. apply Forall_app; split; [apply number_ascii; exact Hn|].
      constructor; [lia|constructor].
    - constructor; [lia|]. apply Forall_app; split; [repeat constructor; discriminate|].
      constructor; [lia|]. constructor; [lia|]. constructor; [lia|].
      apply Forall_app; split; [apply EA; exact HV|repeat constructor; discriminate]. }
  exists (length text). intros b p Hp HB.
  destruct (doc_writes fmtg isfinite wbuf_stream (wb_W b p) (wb_sink b p) A flags) with
    (x := mkws b (Z.of_nat p)) (out := @nil Z) (n := 0%nat) as (x' & E & (W1 & W2 & W3)); auto.
  { intros m; apply HN. }
  { unfold wb_W. cbn [ws_buf ws_off length app]. fold text. rewrite Nat.add_0_r, Nat.add_0_r.
    split; [rewrite firstn_skipn; reflexivity|]. split; [reflexivity|lia]. }
  cbn [app] in W1, W2, W3. fold text in W1, W2, W3.
  assert (LP : length (firstn p b) = p) by (rewrite firstn_length; lia).
  exists (ws_buf x'). split; [|split; [|split]].
  - rewrite E. f_equal. destruct x' as [b' o']. cbn [ws_buf ws_off] in *. rewrite W2. reflexivity.
  - rewrite W1, firstn_app, LP, Nat.sub_diag. cbn [firstn]. rewrite app_nil_r.
    rewrite firstn_firstn, Nat.min_id. reflexivity.
  - rewrite W1, app_assoc, skipn_app. rewrite skipn_all2 by (rewrite app_length, LP; lia).
    rewrite app_length, LP, Nat.sub_diag. reflexivity.
  - intros fuel Hfu.
    destruct (C45_roundtrip_partial zero strtod fmtg isfinite A flags Hr Hc Ho Hfl HFi HN HRT) as (text' & _ & _).
    assert (SK : skipn p (ws_buf x') = text ++ skipn (p + length text) b).
    { rewrite W1, skipn_app, LP, Nat.sub_diag. rewrite skipn_all2 by lia. reflexivity. }
    assert (LB : length (ws_buf x') = length b).
    { rewrite W1, !app_length, LP, skipn_length. lia. }
    destruct (C45_read_dense zero strtod wbuf_stream wb_R wb_source (hdr A flags) (d_rows A) (d_cols A) (vals fmtg A)
                (text ++ skipn (p + length text) b) (skipn (p + length text) b) (mkws (ws_buf x') (Z.of_nat p)) fuel)
      as (A' & x2 & E1 & E2 & E3 & E4 & E5); try lia.
    + apply hdr_header; unfold small in *; lia.
    + rewrite vals_length by nia. lia.
    + intros E0. pose proof (vals_length fmtg A ltac:(nia)) as L. rewrite E0 in L. cbn in L. lia.
    + apply hdr_short; unfold small in *; lia.
    + unfold vals. apply Forall_forall. intros v Hv. apply in_map_iff in Hv.
      destruct Hv as (n & <- & _). apply HN.
    + unfold wb_R, ws_bytes. cbn [ws_buf ws_off]. rewrite Nat2Z.id, SK. split; [lia|]. split; [reflexivity|].
      apply Forall_app; split; [exact TA|]. rewrite Forall_forall in HB |- *. intros c Hcc. apply HB.
      rewrite <- (firstn_skipn (p + length text) b). apply in_or_app. right. exact Hcc.
    + apply doc_spells. exact HV.
    + rewrite app_length, skipn_length. lia.
    + exists A', x2. split; [exact E1|]. split; [exact E3|]. split; [exact E4|].
      intros i j Hi Hj. rewrite E5 by assumption. rewrite vals_length by nia.
      rewrite (proj2 (Z.ltb_lt _ _)) by nia. rewrite vals_nth by nia. rewrite HRT.
      rewrite Z.mod_add, Z.mod_small by lia. rewrite Z.div_add, Z.div_small by lia. reflexivity.
Qed.
Print Assumptions C45_buffer.

(* "%.14g" does not tell all doubles apart: two integers below 2^53 have the same text, so no
   reader can give both of them back. *)
Theorem C45_precision_refuted : exists m n, 0 <= m < 2 ^ 53 /\ 0 <= n < 2 ^ 53 /\ m <> n /\
  g14 m = g14 n /\ forall strtod : list Z -> Z, ~ (strtod (g14 m) = m /\ strtod (g14 n) = n).
Proof.
  exists (2 ^ 53 - 1), (2 ^ 53 - 2).
  assert (E : g14 (2 ^ 53 - 1) = g14 (2 ^ 53 - 2)) by (vm_compute; reflexivity).
  split; [lia|]. split; [lia|]. split; [lia|]. split; [exact E|].
  intros strtod (H1 & H2). rewrite E, H2 in H1. lia.
Qed.
Print Assumptions C45_precision_refuted.

(* integers as elements, printed by "%d" and read by strtol, meet the hypotheses *)
Definition zread (l : list Z) : Z := fst (strtol l).
Example C45_nonvacuous :
  (forall v, number (dec v)) /\ (forall v, zread (dec v) = v) /\
  exists A x', json_read 0 zread file_stream 200
    (codes "{ ""cols"" : 2, ""nnz"":6,""rows"":3, ""data"":[1,-2, 3.0 ,4,5,6e0]} tail", []) =
    Some (0, Some A, x') /\ fst x' = codes " tail" /\ d_rows A = 3 /\ d_cols A = 2 /\
    d_elt A 1 0 = -2 /\ d_elt A 2 1 = 6.
Proof.
  split; [exact dec_number|]. split.
  - intros v. unfold zread. rewrite <- (app_nil_r (dec v)), strtol_dec by exact Logic.I. reflexivity.
  - eexists _, _. split; [vm_compute; reflexivity|]. vm_compute. auto 10.
Qed.

(* ================================================================== *)
(* C46: documents with coordinates *)

Theorem C46_coords_partial : forall {T} (zero : T) strtod {S} (io : stream S) R, is_source io R ->
  forall ms r c cs rs text rest x fuel,
  header ms r c -> 0 < r -> 0 < c -> r * c < 2 ^ 31 ->
  Forall (fun m => (length (snd m) <= 62)%nat) ms ->
  cs <> [] ->
  Forall2 (fun c r => atoi (fst (fst c)) = Some (fst (fst r)) /\ atoi (snd (fst c)) = Some (snd (fst r)) /\
             strtod (snd c) = snd r /\ (length (fst (fst c)) <= 62)%nat /\ (length (snd (fst c)) <= 62)%nat /\
             (length (snd c) <= 62)%nat) cs rs ->
  (forall a, In a rs -> (0 <= fst (fst a) < r /\ 0 <= snd (fst a) < c) \/
     fst (fst a) < 0 \/ fst (fst a) > r \/ snd (fst a) < 0 \/ snd (fst a) > c) ->
  R x text -> spells text (document ms (coords cs)) rest -> (length text < fuel)%nat ->
  exists A x', json_read zero strtod io fuel x = Some (0, Some A, x') /\ R x' rest /\
    d_rows A = r /\ d_cols A = c /\
    forall i j, 0 <= i < r -> 0 <= j < c -> d_elt A i j = listed rs i j zero.
Proof.
  intros T zero strtod S io R src ms r c cs rs text rest x fuel HH Hr Hc Ho HLm Hne H2c HI HR HS Hf.
  destruct (header_heads ms r c HH HLm) as (h & H1 & H2 & H3 & H4 & H5).
  destruct (d_init_ok zero r c ltac:(lia) ltac:(lia) Ho) as (A0 & HA & D1 & D2 & D3 & D4).
  assert (D3' : d_step A0 = d_rows A0) by (rewrite D1; apply D3; nia).
  assert (HI' : Forall (fun a => inside A0 a \/ beyond A0 a) rs).
  { apply Forall_forall. intros a Ha. specialize (HI a Ha). unfold inside, beyond. rewrite D1, D2. tauto. }
  assert (HD : forall x1 t1, R x1 t1 -> spells t1 (commas (coords cs) ++ P "]" :: [P "}"]) rest ->
    (length t1 < fuel)%nat ->
    exists m x' t', read_data strtod io fuel A0 x1 = Some (m, fold_left put1 rs A0, x') /\
      0 <= m /\ R x' t' /\ (length t' <= length t1)%nat /\ spells t' (P "]" :: [P "}"]) rest).
  { intros x1 t1 R1 S1 F1.
    apply (data_coords strtod io R src fuel cs rs A0 x1 t1 [P "}"] rest Hne H2c R1 S1 F1);
      [rewrite D1, D2; nia|exact D3'|exact HI']. }
  destruct (json_read_spells zero strtod io R src fuel ms h A0 (coords cs) x text rest H1 H2 H3)
    as (x1 & t1 & n & A' & x' & x'' & R1 & S1 & F1 & E1 & E2 & R2); try assumption.
  { rewrite H4, H5. exact HA. }
  { intros x1 t1 R1 S1 F1. destruct (HD x1 t1 R1 S1 F1) as (n & x' & t' & Q1 & Q2 & Q4 & Q5 & Q6).
    exists n, (fold_left put1 rs A0), x', t'. auto. }
  destruct (HD x1 t1 R1 S1 F1) as (n' & x3 & t3 & Q1 & _).
  rewrite E1 in Q1. inversion Q1; subst n' A' x3.
  assert (G : forall (rs : list (Z * Z * T)) (A : dmat T), d_rows (fold_left put1 rs A) = d_rows A /\ d_cols (fold_left put1 rs A) = d_cols A /\
    d_step (fold_left put1 rs A) = d_step A /\
    (d_step A = d_rows A -> forall i j, 0 <= i < d_rows A -> 0 <= j < d_cols A ->
       d_elt (fold_left put1 rs A) i j = listed rs i j (d_elt A i j))).
  { clear. induction rs as [|[[i0 j0] v] rs IH]; intros A.
    - cbn. auto.
    - cbn [fold_left]. destruct (IH (put1 A (i0, j0, v))) as (I1 & I2 & I3 & I4).
      destruct (put1_dims A (i0, j0, v)) as (P1 & P2 & P3).
      rewrite I1, I2, I3, P1, P2, P3. split; [reflexivity|]. split; [reflexivity|]. split; [reflexivity|].
      intros Hs i j Hi Hj. rewrite I4 by congruence. unfold listed. cbn [fold_left fst snd]. f_equal.
      unfold put1. cbn [fst snd].
      destruct ((0 <=? i0) && (i0 <? d_rows A) && (0 <=? j0) && (j0 <? d_cols A)) eqn:E.
      + bsplit. unfold d_elt. cbn [d_mem d_step]. rewrite Hs.
        destruct (Z.eqb_spec i0 i), (Z.eqb_spec j0 j); cbn [andb]; subst;
          try (rewrite Z.eqb_refl; reflexivity);
          (rewrite (proj2 (Z.eqb_neq _ _)); [reflexivity|]); try lia; try nia.
      + destruct (Z.eqb_spec i0 i), (Z.eqb_spec j0 j); cbn [andb]; try reflexivity. subst.
        rewrite (proj2 (Z.leb_le 0 i)), (proj2 (Z.ltb_lt i _)), (proj2 (Z.leb_le 0 j)), (proj2 (Z.ltb_lt j _)) in E by lia.
        discriminate. }
  destruct (G rs A0) as (G1 & G2 & _ & G4).
  exists (fold_left put1 rs A0), x''. split; [exact E2|]. split; [exact R2|]. split; [congruence|]. split; [congruence|].
  intros i j Hi Hj. rewrite G4 by (try exact D3'; lia). f_equal. unfold d_elt. apply D4.
Qed.
Print Assumptions C46_coords_partial.

(* Row number 'rows' is outside the matrix but not discarded: it overwrites the first element
   of the next column. *)
Theorem C46_row_bound_refuted : exists A x',
  json_read 0 zread file_stream 200
    (codes "{""rows"":2,""cols"":2,""data"":[[2,0,7]]}", []) = Some (0, Some A, x') /\
  d_rows A = 2 /\ d_elt A 0 1 = 7.
Proof. eexists _, _. split; [vm_compute; reflexivity|]. vm_compute. auto. Qed.
Print Assumptions C46_row_bound_refuted.

(* Column number 'cols' is stored outside the elements of the matrix. *)
Theorem C46_col_bound_refuted :
  json_read 0 zread file_stream 200
    (codes "{""rows"":2,""cols"":2,""data"":[[0,2,7]]}", []) = None.
Proof. vm_compute. reflexivity. Qed.
Print Assumptions C46_col_bound_refuted.

Example C46_nonvacuous : exists A x',
  json_read 0 zread file_stream 200
    (codes "{""rows"":2,""cols"":3,""data"":[[1,2,7],[5,0,1],[0,-1,3],[0,0,4],[1,2,8]]}", []) =
    Some (0, Some A, x') /\ d_elt A 1 2 = 8 /\ d_elt A 0 0 = 4 /\ d_elt A 1 1 = 0.
Proof. eexists _, _. split; [vm_compute; reflexivity|]. vm_compute. auto. Qed.

(* ================================================================== *)
(* C63: strings are read back *)

Theorem C63_string_roundtrip_partial : forall s,
  Forall (fun c => 32 <= c <= 126 \/ In c [8; 9; 10; 13]) s ->
  exists text,
    (forall S (io : stream S) W, is_sink io W -> forall x out n, W x out (length text + n)%nat ->
       exists x', json_write_string io s (Z.of_nat (length s)) x = (0, x') /\ W x' (out ++ text) n) /\
    (forall S (io : stream S) R, is_source io R -> forall rest x fuel len,
       R x (text ++ rest) -> (length (text ++ rest) < fuel)%nat ->
       Z.of_nat (length s) + 2 <= len < 2 ^ 64 ->
       exists x', json_read_token io fuel len x = Some (J_STRING, s, x') /\ R x' rest).
Proof.
  intros s HF. destruct (escape_quoted s HF) as (HQ & HA & HC).
  exists (34 :: flat_map escape s ++ [34]). split.
  - intros S io W snk x out n H.
    pose proof (string_writes io W snk s (Z.of_nat (length s))) as HW.
    assert (E : strchars s (Z.of_nat (length s)) = s).
    { unfold strchars. rewrite Nat2Z.id, firstn_all. exact HC. }
    rewrite E in HW. apply (HW HA x out n H).
  - intros S io R src rest x fuel len HR Hf Hl.
    replace ((34 :: flat_map escape s ++ [34]) ++ rest) with (34 :: flat_map escape s ++ 34 :: rest) in *
      by (cbn; rewrite <- app_assoc; reflexivity).
    destruct (rt_spells io R src len (34 :: flat_map escape s ++ 34 :: rest) [TStr s] rest)
      with (k := TStr s) (ks' := @nil jtok) (fuel := fuel) (x := x) as (x' & t' & S' & R' & _ & _ & E);
      try assumption; try reflexivity; try lia.
    + apply sp_str; [exact HQ|apply sp_done].
    + cbn [tok_text]. lia.
    + apply spells_nil in S'. subst t'. exists x'. split; [exact E|exact R'].
Qed.
Print Assumptions C63_string_roundtrip_partial.

(* Other control characters are left out of the text. *)
Theorem C63_control_refuted : exists s text x',
  json_write_string file_stream s (Z.of_nat (length s)) ([], []) = (0, ([], text)) /\
  json_read_token file_stream 100 64 (text, []) = Some (J_STRING, codes "ab", x') /\ s <> codes "ab".
Proof.
  exists [97; 12; 98], (34 :: codes "ab" ++ [34]). eexists.
  split; [vm_compute; reflexivity|]. split; [vm_compute; reflexivity|discriminate].
Qed.
Print Assumptions C63_control_refuted.

(* The escape A, the letter A, is read as the character with decimal code 41. *)
Theorem C63_unicode_refuted : exists x',
  json_read_token file_stream 100 64 (34 :: cBSL :: codes "u0041" ++ [34], []) = Some (J_STRING, [41], x').
Proof. eexists. vm_compute. reflexivity. Qed.
Print Assumptions C63_unicode_refuted.

Example C63_nonvacuous : Forall (fun c => 32 <= c <= 126 \/ In c [8; 9; 10; 13]) (codes "a/b"++[9;34;92;10]) /\
  exists x', json_read_token file_stream 100 64
    (snd (snd (json_write_string file_stream (codes "a/b"++[9;34;92;10]) 7 ([], []))), []) =
    Some (J_STRING, codes "a/b"++[9;34;92;10], x').
Proof.
  split.
  - cbn. repeat (apply Forall_cons; [first [left; split; discriminate | right; tauto]|]). apply Forall_nil.
  - eexists. vm_compute. reflexivity.
Qed.

(* ================================================================== *)
(* C64: members other than rows, cols, nnz, flags and data are refused *)

(* A name that does not begin with one of the five is refused with -2. *)
Theorem C64_unknown_partial : forall {T} (zero : T) strtod {S} (io : stream S) R, is_source io R ->
  forall ms k text rest x fuel after,
  NoDup (map fst ms) ->
  (forall n v, In (n, v) ms -> In n ["rows"; "cols"; "nnz"; "flags"]%string /\
     (exists z, atoi v = Some z) /\ (length v <= 62)%nat) ->
  short (TStr k) ->
  (forall name, In name ["rows"; "cols"; "data"; "nnz"; "flags"]%string -> prefix (codes name) k = false) ->
  R x text -> spells text (P "{" :: members ms ++ TStr k :: after) rest -> (length text < fuel)%nat ->
  exists x', json_read zero strtod io fuel x = Some (-2, None, x').
Proof.
  intros T zero strtod S io R src ms k text rest x fuel after ND HM Hk Hno HR HS Hf.
  assert (HH : exists h, heads ms (mkhead 0 0 false false false false) h).
  { destruct (heads_ex ms (mkhead 0 0 false false false false) ND) as (h & HH & _); [|exists h; exact HH].
    intros n v Hin. destruct (HM n v Hin) as (Hn & Hz & Hl). cbn in Hn.
    repeat match type of Hn with _ \/ _ => destruct Hn as [Hn | Hn] | False => destruct Hn end; subst n;
      eexists; (split; [reflexivity|split; [reflexivity|split; assumption]]). }
  destruct HH as (h & HH). clear ND HM.
  unfold json_read.
  destruct (tok_spells io R src fuel text (P "{") _ rest x HS HR Hf (short_P "{"))
    as (x1 & t1 & S1 & R1 & L1 & _ & _ & E1).
  rewrite E1. cbn [obind tok_code P tok_text].
  change (hd 0 (codes "{") =? J_NULL) with false. change (hd 0 (codes "{") =? cLBC) with true. cbn [negb]. cbv iota.
  assert (F1 : (length t1 < fuel)%nat) by lia. clear E1 HR HS.
  assert (G : forall n first h0, heads ms h0 h -> (length t1 < n)%nat ->
    exists x', read_head io n fuel first MKEY h0 x1 = Some (HErr (-2) x')).
  { clear HH Hf L1. revert x1 t1 S1 R1 F1.
    induction ms as [|[k0 v] ms IH]; intros x1 t1 S1 R1 F1 n first h0 HH HN.
    - cbn [members flat_map app] in S1.
      destruct n as [|n]; [lia|]. cbn [read_head].
      destruct (tok_spells io R src fuel t1 (TStr k) _ rest x1 S1 R1 F1 Hk)
        as (x2 & t2 & S2 & R2 & L2 & _ & C2 & E2).
      rewrite E2. cbn [obind tok_code tok_text]. cbn [tok_text] in C2. rewrite C2.
      change (J_STRING =? J_STRING) with true. cbn [negb].
      rewrite !Hno by (cbn; tauto). eexists. reflexivity.
    - inversion HH as [|? ? ? ? ? key nv Hk0 Hb Ha Hlen HH']; subst.
      cbn [members flat_map app fst snd] in S1. fold (members ms) in S1.
      destruct (tok_spells io R src fuel t1 _ _ rest x1 S1 R1 F1 (short_key k0 key Hk0))
        as (x2 & t2 & S2 & R2 & L2 & _ & C2 & E2). cbn [tok_text] in C2.
      destruct (tok_spells io R src fuel t2 _ _ rest x2 S2 R2 ltac:(lia) (short_P ":"))
        as (x3 & t3 & S3 & R3 & L3 & _ & _ & E3).
      destruct (tok_spells io R src fuel t3 _ _ rest x3 S3 R3 ltac:(lia) (Hlen : short (TNum v)))
        as (x4 & t4 & S4 & R4 & L4 & _ & C4 & E4). cbn [tok_text] in C4.
      destruct (tok_spells io R src fuel t4 _ _ rest x4 S4 R4 ltac:(lia) (short_P ","))
        as (x5 & t5 & S5 & R5 & L5 & _ & _ & E5).
      do 4 (destruct n as [|n]; [lia|]).
      cbn [read_head]. rewrite E2. cbn [obind tok_code tok_text]. rewrite C2.
      change (J_STRING =? J_STRING) with true. cbn [negb].
      destruct (IH x5 t5 S5 R5 ltac:(lia) n false (hset key nv h0) HH' ltac:(lia)) as (x' & E').
      exists x'. rewrite <- E'.
      destruct (name_cases k0 key Hk0) as [(-> & ->) | [(-> & ->) | [(-> & ->) | (-> & ->)]]];
        cbn [hbit] in Hb; cbn -[read_head]; rewrite Hb;
        cbn [read_head]; rewrite E3; cbn -[read_head tok]; cbn [read_head]; rewrite E4;
        cbn -[read_head tok atoi cstr]; rewrite C4, Ha; cbn -[read_head tok]; cbn [read_head];
        rewrite E5; cbn -[read_head tok]; reflexivity. }
  destruct (G fuel true _ HH F1) as (x' & E'). rewrite E'. cbn [obind]. eexists. reflexivity.
Qed.
Print Assumptions C64_unknown_partial.

(* A name that only begins with a known one is accepted. *)
Theorem C64_prefix_refuted : exists A x',
  json_read 0 zread file_stream 200
    (codes "{""rowsum"":1,""colspan"":1,""database"":[5]}", []) = Some (0, Some A, x') /\ d_elt A 0 0 = 5.
Proof. eexists _, _. split; [vm_compute; reflexivity|]. reflexivity. Qed.
Print Assumptions C64_prefix_refuted.

Example C64_nonvacuous : exists x',
  json_read 0 zread file_stream 200
    (codes "{""rows"":1,""size"":1,""data"":[5]}", []) = Some (-2, None, x').
Proof. eexists. vm_compute. reflexivity. Qed.
