(* Properties_Json.v: C44, C45, C46, C48, C63, C64: character streams and JSON. *)
From Coq Require Import String Ascii.
From Coq Require Import ZArith Bool List Lia.
From Verif Require Import MBase MIo SpecJson PIo PJson PJsonw.
Import ListNotations.
Local Open Scope Z_scope.

(* ================================================================== *)
(* C44: tokens are read within the buffer and reading terminates *)

Definition litok (s : jstate) (lit : list Z) : Prop :=
  Forall (fun c => isxdigit c = true) lit /\
  match s with HEX2 => length lit = 1%nat | HEX3 => length lit = 2%nat
             | HEX4 => length lit = 3%nat | _ => True end.

Lemma digits_bound : forall l acc, 0 <= acc -> 
  0 <= fst (digits acc l) <= acc * 10 ^ Z.of_nat (length l) + 10 ^ Z.of_nat (length l) - 1.
Proof.
  induction l as [|c l IH]; intros acc H.
  - cbn [digits fst length]. change (10 ^ Z.of_nat 0) with 1. lia.
  - cbn [digits length]. rewrite Nat2Z.inj_succ, Z.pow_succ_r by lia.
    assert (0 < 10 ^ Z.of_nat (length l)) by (apply Z.pow_pos_nonneg; lia).
    destruct (isdigit c) eqn:E.
    + unfold isdigit in E. bsplit. specialize (IH (acc * 10 + (c - 48)) ltac:(lia)). nia.
    + cbn [fst]. nia.
Qed.

Lemma atoi_hex : forall l, length l = 4%nat -> Forall (fun c => isxdigit c = true) l ->
  exists v, atoi l = Some v /\ 0 <= v <= 9999.
Proof.
  intros l HL HF. destruct l as [|c l]; [discriminate|]. inversion HF as [|? ? Hc HF']; subst.
  assert (Hs : isspace c = false /\ (c =? cMINUS) = false /\ (c =? cPLUS) = false).
  { unfold isxdigit, isdigit in Hc. unfold isspace, cMINUS, cPLUS.
    apply orb_true_iff in Hc. rewrite orb_true_iff in Hc.
    destruct Hc as [[Hc|Hc]|Hc]; bsplit; eqbs; auto. }
  destruct Hs as (H1 & H2 & H3).
  unfold atoi, strtol. cbn [skipsp]. rewrite H1, H2, H3.
  destruct (isdigit c) eqn:E.
  - pose proof (digits_bound (c :: l) 0 ltac:(lia)) as B. rewrite HL in B.
    change (10 ^ Z.of_nat 4) with 10000 in B.
    exists (fst (digits 0 (c :: l))). unfold i32.
    rewrite (proj2 (Z.leb_le _ _)), (proj2 (Z.ltb_lt _ _)) by lia. split; [reflexivity|lia].
  - exists 0. cbn [fst]. split; [reflexivity|lia].
Qed.

Lemma jstep_total : forall len s frac lit b c,
  Z.of_nat (length b) < len -> litok s lit ->
  exists r, jstep len s frac lit b c = Some r /\
    match r with
    | Stop _ b' _ => b' = b
    | Go s' _ lit' b' => litok s' lit' /\ (length b' <= length b + 1)%nat
    end.
Proof.
  intros len s frac lit b c Hb (HX & HL).
  assert (PB : forall c, putb len b c = Some (b ++ [byte c]))
    by (intros; unfold putb; rewrite (proj2 (Z.ltb_lt _ _)) by lia; reflexivity).
  assert (TB : term len b = Some b)
    by (unfold term; rewrite (proj2 (Z.ltb_lt _ _)) by lia; reflexivity).
  assert (LB : forall d, (length (b ++ [d]) <= length b + 1)%nat)
    by (intros; rewrite app_length; cbn; lia).
  destruct s; unfold jstep, jput; rewrite ?TB;
    repeat match goal with |- context [if ?x then _ else _] =>
      match x with Z.of_nat _ + 1 <? 8 => fail 1 | _ => destruct x eqn:? end end;
    rewrite ?PB; cbn [obind];
    try (eexists; split; [reflexivity|]; cbn beta iota; first [reflexivity |
      split; [split; [first [exact HX|constructor]|cbn; exact Logic.I] | first [apply LB | lia]]]).
  - eexists; split; [reflexivity|]. cbn beta iota. split; [split; [|reflexivity]|lia].
    constructor; [assumption|constructor].
  - eexists; split; [reflexivity|]. cbn beta iota. split; [split|lia].
    + apply Forall_app; split; [exact HX|constructor; [assumption|constructor]].
    + rewrite app_length, HL. reflexivity.
  - eexists; split; [reflexivity|]. cbn beta iota. split; [split|lia].
    + apply Forall_app; split; [exact HX|constructor; [assumption|constructor]].
    + rewrite app_length, HL. reflexivity.
  - rewrite HL. change (Z.of_nat 3 + 1 <? 8) with true. cbv iota.
    assert (HX' : Forall (fun c => isxdigit c = true) (lit ++ [c]))
      by (apply Forall_app; split; [exact HX|constructor; [assumption|constructor]]).
    destruct (atoi_hex (lit ++ [c])) as (v & E & _); [rewrite app_length, HL; reflexivity|exact HX'|].
    rewrite E. cbn [obind]. rewrite PB. cbn [obind].
    eexists; split; [reflexivity|]. cbn beta iota. split; [split; [exact HX'|exact Logic.I]|apply LB].
Qed.

Lemma rt_total : forall {S} (io : stream S) (mu : S -> nat),
  (forall x, 0 <= fst (getc io x) -> (mu (snd (getc io x)) < mu x)%nat) ->
  forall fuel len s frac lit b x, 1 <= len < 2 ^ 64 -> litok s lit ->
  Z.of_nat (length b) < len -> (mu x < fuel)%nat ->
  exists t b' x', rt_loop io fuel len s frac lit b x = Some (t, b', x') /\
    Z.of_nat (length b') <= len /\
    (t = J_NUMBER \/ t = J_STRING -> Z.of_nat (length b') < len).
Proof.
  intros S io mu Hmu. induction fuel as [|fuel IH]; intros len s frac lit b x Hl HL Hb Hf; [lia|].
  cbn [rt_loop]. cbv zeta.
  destruct (fst (getc io x) <? 0) eqn:E; bsplit.
  - assert (TB : term len b = Some b)
      by (unfold term; rewrite (proj2 (Z.ltb_lt _ _)) by lia; reflexivity).
    destruct s; rewrite ?TB; eexists _, _, _; (split; [reflexivity|split; [lia|intros _; exact Hb]]).
  - destruct (jstep_total len s frac lit b (fst (getc io x)) Hb HL) as (r & Er & Hr). rewrite Er.
    cbn [obind]. destruct r as [t b' u|s' f' l' b'].
    + subst b'. eexists _, _, _. split; [reflexivity|split; [lia|intros _; exact Hb]].
    + destruct Hr as (HL' & Hb'). rewrite u64_small by lia.
      destruct (len - 1 <=? Z.of_nat (length b')) eqn:E2; bsplit.
      * eexists _, _, _. split; [reflexivity|]. split; [lia|]. intros [H|H]; discriminate.
      * apply IH; try assumption; [lia|]. specialize (Hmu x E). lia.
Qed.

(* Any stream in which reading a character leaves fewer characters to be read: the token is
   read without a store outside the len bytes of the buffer (a store outside would be None),
   and more fuel than characters is enough. *)
Theorem C44_bounded_partial : forall {S} (io : stream S) (mu : S -> nat),
  (forall x, 0 <= fst (getc io x) -> (mu (snd (getc io x)) < mu x)%nat) ->
  forall fuel len x, 1 <= len < 2 ^ 64 -> (mu x < fuel)%nat ->
  exists t b x', json_read_token io fuel len x = Some (t, b, x') /\
    Z.of_nat (length b) <= len /\
    (t = J_NUMBER \/ t = J_STRING -> Z.of_nat (length b) < len).
Proof.
  intros S io mu Hmu fuel len x Hl Hf. unfold json_read_token.
  apply (rt_total io mu Hmu); try assumption; [split; [constructor|exact Logic.I]|cbn; lia].
Qed.
Print Assumptions C44_bounded_partial.

(* The token ends at or before the end of the text: what is left to read is a suffix. *)
Theorem C44_within_text : forall {S} (io : stream S) R, is_source io R ->
  forall fuel len x l, 1 <= len < 2 ^ 64 -> R x l -> (length l < fuel)%nat ->
  exists t b x' p l', json_read_token io fuel len x = Some (t, b, x') /\ l = p ++ l' /\ R x' l'.
Proof.
  intros S io R src. unfold json_read_token.
  assert (G : forall fuel len s frac lit b x l, 1 <= len < 2 ^ 64 -> litok s lit ->
    Z.of_nat (length b) < len -> R x l -> (length l < fuel)%nat ->
    exists t b' x' p l', rt_loop io fuel len s frac lit b x = Some (t, b', x') /\ l = p ++ l' /\ R x' l').
  { induction fuel as [|fuel IH]; intros len s frac lit b x l Hl HL Hb HR Hf; [lia|].
    cbn [rt_loop]. cbv zeta. destruct l as [|c l].
    - destruct (src_end io R src x HR) as (H1 & H2). rewrite (proj2 (Z.ltb_lt _ 0)) by lia.
      assert (TB : term len b = Some b)
        by (unfold term; rewrite (proj2 (Z.ltb_lt _ _)) by lia; reflexivity).
      destruct s; rewrite ?TB; eexists _, _, _, [], []; (split; [reflexivity|split; [reflexivity|exact H2]]).
    - destruct (src_get io R src x c l HR) as (H1 & H2 & H3 & H4). rewrite H1.
      rewrite (proj2 (Z.ltb_ge c 0)) by lia.
      destruct (jstep_total len s frac lit b c Hb HL) as (r & Er & Hr). rewrite Er.
      cbn [obind]. destruct r as [t b' u|s' f' l' b'].
      + destruct u; [eexists _, _, _, [], (c :: l)|eexists _, _, _, [c], l];
          (split; [reflexivity|split; [reflexivity|assumption]]).
      + destruct Hr as (HL' & Hb'). rewrite u64_small by lia.
        destruct (len - 1 <=? Z.of_nat (length b')) eqn:E2; bsplit.
        * eexists _, _, _, [c], l. split; [reflexivity|split; [reflexivity|assumption]].
        * destruct (IH len s' f' l' b' (snd (getc io x)) l) as (t & b2 & x2 & p & l2 & E & Hp & HR2);
            try assumption; [lia|cbn [length] in Hf; lia|].
          exists t, b2, x2, (c :: p), l2. split; [exact E|]. split; [cbn; f_equal; exact Hp|exact HR2]. }
  intros fuel len x l Hl HR Hf. apply G; try assumption; [split; [constructor|exact Logic.I]|cbn; lia].
Qed.
Print Assumptions C44_within_text.

(* Every token of a text is read as it is spelled, if it fits the buffer. *)
Theorem C44_tokens : forall {S} (io : stream S) R, is_source io R ->
  forall fuel len x text k ks rest, 2 <= len < 2 ^ 64 ->
  Z.of_nat (length (tok_text k)) <= len - 2 ->
  R x text -> spells text (k :: ks) rest -> (length text < fuel)%nat ->
  exists x' text', json_read_token io fuel len x = Some (tok_code k, tok_text k, x') /\
    R x' text' /\ spells text' ks rest.
Proof.
  intros S io R src fuel len x text k ks rest Hl Hk HR HS Hf.
  destruct (rt_spells io R src len text (k :: ks) rest HS k ks fuel x eq_refl Hl Hk HR Hf)
    as (x' & t' & H1 & H2 & H3 & _ & H5).
  exists x', t'. split; [exact H5|]. split; assumption.
Qed.
Print Assumptions C44_tokens.

(* A buffer of length 0: len-1 wraps around, and a digit is stored outside. *)
Theorem C44_empty_buffer_refuted : exists x, json_read_token file_stream 100 0 x = None.
Proof. exists (codes "12 ", []). vm_compute. reflexivity. Qed.
Print Assumptions C44_empty_buffer_refuted.

Example C44_nonvacuous :
  json_read_token file_stream 100 64 (codes "  -12.5e+3, 7", []) =
    Some (J_NUMBER, codes "-12.5e+3", (codes ", 7", [])) /\
  json_read_token file_stream 100 4 (codes "12345,", []) =
    Some (J_E2BIG, codes "123", (codes "45,", [])).
Proof. split; vm_compute; reflexivity. Qed.

(* ================================================================== *)
(* C48: character streams *)

Inductive sop : Type := Oget | Ounget (c : Z) | Oput (c : Z).
Definition wstep (o : sop) (w : wstream) : option (Z * wstream) :=
  match o with
  | Oget => wb_getc w
  | Ounget c => obind (wb_ungetc w c) (fun w => Some (0, w))
  | Oput c => wb_putc w c
  end.
Fixpoint whist (os : list sop) (w : wstream) : option (list Z * wstream) :=
  match os with
  | [] => Some ([], w)
  | o :: os' => obind (wstep o w) (fun r => obind (whist os' (snd r)) (fun rs => Some (fst r :: fst rs, snd rs)))
  end.

Definition wf_ws (w : wstream) : Prop := 0 <= ws_off w <= ws_bytes w.

Lemma ld_ok : forall b i, 0 <= i < Z.of_nat (length b) -> ld b i = Some (nth (Z.to_nat i) b 0).
Proof.
  intros b i H. unfold ld. rewrite (proj2 (Z.leb_le 0 i)), (proj2 (Z.ltb_lt i _)) by lia. cbn [andb].
  apply nth_error_nth'. lia.
Qed.
Lemma st_ok : forall b i c, 0 <= i < Z.of_nat (length b) -> st b i c = Some (upd b (Z.to_nat i) (byte c)).
Proof.
  intros b i c H. unfold st. rewrite (proj2 (Z.leb_le 0 i)), (proj2 (Z.ltb_lt i _)) by lia. reflexivity.
Qed.

(* No history of operations accesses anything outside the buffer (that would be None), and a
   put at the end is refused. *)
Theorem C48_bounded : forall os w, wf_ws w ->
  exists rs w', whist os w = Some (rs, w') /\ wf_ws w' /\ length (ws_buf w') = length (ws_buf w).
Proof.
  induction os as [|o os IH]; intros w Hw.
  - exists [], w. split; [reflexivity|]. split; [exact Hw|reflexivity].
  - assert (G : exists r w1, wstep o w = Some (r, w1) /\ wf_ws w1 /\ length (ws_buf w1) = length (ws_buf w)).
    { destruct w as [b p]. unfold wf_ws, ws_bytes in Hw. cbn [ws_buf ws_off] in Hw.
      destruct o as [|c|c]; cbn [wstep]; unfold wb_getc, wb_ungetc, wb_putc, ws_bytes; cbn [ws_buf ws_off].
      - destruct (p <? Z.of_nat (length b)) eqn:E; bsplit.
        + rewrite ld_ok by lia. cbn [obind]. eexists _, _. split; [reflexivity|].
          unfold wf_ws, ws_bytes. cbn [ws_buf ws_off]. split; [lia|reflexivity].
        + eexists _, _. split; [reflexivity|]. unfold wf_ws, ws_bytes. cbn [ws_buf ws_off]. split; [lia|reflexivity].
      - destruct (0 <? p) eqn:E; bsplit.
        + rewrite st_ok by lia. cbn [obind]. eexists _, _. split; [reflexivity|].
          unfold wf_ws, ws_bytes. cbn [ws_buf ws_off]. rewrite upd_length. split; [lia|reflexivity].
        + cbn [obind]. eexists _, _. split; [reflexivity|]. unfold wf_ws, ws_bytes. cbn [ws_buf ws_off]. split; [lia|reflexivity].
      - destruct (p <? Z.of_nat (length b)) eqn:E; bsplit.
        + rewrite st_ok by lia. cbn [obind]. eexists _, _. split; [reflexivity|].
          unfold wf_ws, ws_bytes. cbn [ws_buf ws_off]. rewrite upd_length. split; [lia|reflexivity].
        + eexists _, _. split; [reflexivity|]. unfold wf_ws, ws_bytes. cbn [ws_buf ws_off]. split; [lia|reflexivity]. }
    destruct G as (r & w1 & E1 & H1 & L1). destruct (IH w1 H1) as (rs & w' & E2 & H2 & L2).
    exists (r :: rs), w'. cbn [whist]. rewrite E1. cbn [obind snd fst]. rewrite E2. cbn [obind fst snd].
    split; [reflexivity|]. split; [exact H2|congruence].
Qed.
Print Assumptions C48_bounded.

(* Reading returns the bytes in order (as char values), then the end. *)
Theorem C48_in_order : forall n b k, (k + n <= length b)%nat ->
  whist (repeat Oget n) (mkws b (Z.of_nat k)) =
    Some (map schar (firstn n (skipn k b)), mkws b (Z.of_nat (k + n))) /\
  wstep Oget (mkws b (Z.of_nat (length b))) = Some (-1, mkws b (Z.of_nat (length b))).
Proof.
  intros n b k H. split.
  - revert k H. induction n as [|n IH]; intros k H.
    + cbn. rewrite Nat.add_0_r. reflexivity.
    + cbn [repeat whist wstep]. unfold wb_getc, ws_bytes. cbn [ws_buf ws_off].
      rewrite (proj2 (Z.ltb_lt _ _)) by lia. rewrite ld_ok by lia. cbn [obind snd fst].
      replace (Z.of_nat k + 1) with (Z.of_nat (Datatypes.S k)) by lia.
      rewrite IH by lia. cbn [obind fst snd]. rewrite Nat2Z.id.
      destruct (skipn k b) as [|c r] eqn:E.
      * pose proof (f_equal (@length Z) E) as E2. rewrite skipn_length in E2. cbn in E2. lia.
      * rewrite (skipn_S k b c r E). pose proof (nth_error_skipn k b c r E) as N.
        rewrite (nth_error_nth b k 0 N). cbn [firstn map].
        replace (k + Datatypes.S n)%nat with (Datatypes.S k + n)%nat by lia. reflexivity.
  - cbn [wstep]. unfold wb_getc, ws_bytes. cbn [ws_buf ws_off].
    rewrite (proj2 (Z.ltb_ge _ _)) by lia. reflexivity.
Qed.
Print Assumptions C48_in_order.

Lemma nth_upd : forall (b : list Z) n m c, (n < length b)%nat ->
  nth m (upd b n c) 0 = if Nat.eqb m n then c else nth m b 0.
Proof.
  induction b as [|a b IH]; intros n m c H; [cbn in H; lia|]. destruct n as [|n], m as [|m]; cbn; try reflexivity.
  apply IH. cbn in H. lia.
Qed.

(* After at least one character has been read, a character pushed back is the next one read,
   reading goes on behind it as before, and pushing back the character just read restores
   everything. *)
Theorem C48_pushback_partial : forall w c, wf_ws w -> 0 < ws_off w -> 0 <= c <= 127 ->
  exists w1 w2, wb_ungetc w c = Some w1 /\ wb_getc w1 = Some (c, w2) /\
    ws_off w2 = ws_off w /\
    (forall k, Z.of_nat k <> ws_off w - 1 -> nth k (ws_buf w2) 0 = nth k (ws_buf w) 0) /\
    (nth (Z.to_nat (ws_off w - 1)) (ws_buf w) 0 = c -> w2 = w).
Proof.
  intros [b p] c Hw Hp Hc. unfold wf_ws, ws_bytes in Hw. cbn [ws_buf ws_off] in *.
  exists (mkws (upd b (Z.to_nat (p - 1)) c) (p - 1)), (mkws (upd b (Z.to_nat (p - 1)) c) p).
  split; [|split; [|split; [reflexivity|split]]].
  - unfold wb_ungetc. cbn [ws_buf ws_off]. rewrite (proj2 (Z.ltb_lt 0 p)) by lia.
    rewrite st_ok by lia. rewrite byte_id by lia. reflexivity.
  - unfold wb_getc, ws_bytes. cbn [ws_buf ws_off]. rewrite upd_length.
    rewrite (proj2 (Z.ltb_lt _ _)) by lia. rewrite ld_ok by (rewrite upd_length; lia). cbn [obind].
    rewrite nth_upd by lia. rewrite Nat.eqb_refl. unfold schar. rewrite (proj2 (Z.ltb_lt c 128)) by lia.
    replace (p - 1 + 1) with p by lia. reflexivity.
  - intros k Hk. cbn [ws_buf ws_off] in *. rewrite nth_upd by lia. destruct (Nat.eqb_spec k (Z.to_nat (p - 1))); [lia|reflexivity].
  - intros E. f_equal. apply upd_same. rewrite <- E. apply nth_error_nth'. lia.
Qed.
Print Assumptions C48_pushback_partial.

(* Written characters are stored in order from the position on, nothing else changes, and
   writing at the end is refused without a change. *)
Theorem C48_put : forall w c, wf_ws w ->
  (ws_off w < ws_bytes w -> exists w', wb_putc w c = Some (c, w') /\ ws_off w' = ws_off w + 1 /\
     forall k, nth k (ws_buf w') 0 = if Z.of_nat k =? ws_off w then byte c else nth k (ws_buf w) 0) /\
  (ws_off w = ws_bytes w -> wb_putc w c = Some (-1, w)).
Proof.
  intros [b p] c Hw. unfold wf_ws, ws_bytes in *. cbn [ws_buf ws_off] in *. unfold wb_putc, ws_bytes. cbn [ws_buf ws_off].
  split; intros H.
  - rewrite (proj2 (Z.ltb_lt _ _)) by lia. rewrite st_ok by lia. cbn [obind].
    eexists. split; [reflexivity|]. cbn [ws_buf ws_off]. split; [reflexivity|].
    intros k. rewrite nth_upd by lia.
    destruct (Nat.eqb_spec k (Z.to_nat p)), (Z.eqb_spec (Z.of_nat k) p); try reflexivity; lia.
  - rewrite (proj2 (Z.ltb_ge _ _)) by lia. reflexivity.
Qed.
Print Assumptions C48_put.

(* A byte above 127 is read as a negative number: the byte 255 cannot be told from the end. *)
Theorem C48_high_byte_refuted : exists w, ws_off w < ws_bytes w /\
  nth 0 (ws_buf w) 0 = 255 /\ wb_getc w = Some (-1, mkws (ws_buf w) (ws_off w + 1)).
Proof. exists (mkws [255; 65] 0). repeat split. Qed.
Print Assumptions C48_high_byte_refuted.

(* At the start of the stream the pushed back character is lost. *)
Theorem C48_unget_at_start_refuted : exists w w1, wb_ungetc w 88 = Some w1 /\
  exists w2, wb_getc w1 = Some (65, w2).
Proof. exists (mkws [65; 66] 0). eexists. split; [reflexivity|]. eexists. reflexivity. Qed.
Print Assumptions C48_unget_at_start_refuted.

Example C48_nonvacuous :
  whist [Oget; Ounget 90; Oget; Oput 33; Oget] (mkws [65; 66] 0) =
    Some ([65; 0; 90; 33; -1], mkws [90; 33] 2).
Proof. vm_compute. reflexivity. Qed.
