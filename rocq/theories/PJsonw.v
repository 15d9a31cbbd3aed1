(* PJsonw.v: lemmas about the streams of ios.c, decimal numbers and writing JSON documents. *)
From Coq Require Import String Ascii.
From Coq Require Import ZArith Bool List Lia.
From Verif Require Import MBase MIo SpecJson PIo PJson.
Import ListNotations.
Local Open Scope Z_scope.

(* ------------------------------------------------------------------ *)
(* decimal numbers *)

Lemma dec_pos_digs : forall f n, 0 <= n -> f <> O -> digs (dec_pos f n).
Proof.
  induction f as [|f IH]; intros n Hn Hf; [congruence|]. cbn [dec_pos].
  destruct (n <? 10) eqn:E; bsplit.
  - split; [discriminate|]. constructor; [lia|constructor].
  - destruct f as [|f].
    + cbn [dec_pos app]. split; [discriminate|]. constructor; [|constructor].
      pose proof (Z.mod_pos_bound n 10). lia.
    + destruct (IH (n / 10)) as (H1 & H2); [apply Z.div_pos; lia|discriminate|].
      split; [destruct (dec_pos (S f) (n / 10)); discriminate|].
      apply Forall_app; split; [exact H2|]. constructor; [|constructor].
      pose proof (Z.mod_pos_bound n 10). lia.
Qed.

Lemma digits_app : forall l acc r, Forall (fun c => 48 <= c <= 57) l ->
  digits acc (l ++ r) = digits (fst (digits acc l)) r.
Proof.
  induction l as [|c l IH]; intros acc r H; [reflexivity|]. inversion H; subst.
  cbn [app digits]. rewrite digit_isdigit by assumption. apply IH; assumption.
Qed.

Lemma digits_end : forall l acc r, Forall (fun c => 48 <= c <= 57) l ->
  (match r with [] => True | c :: _ => isdigit c = false end) ->
  digits acc (l ++ r) = (fst (digits acc l), r).
Proof.
  intros l acc r H Hr. rewrite digits_app by exact H. destruct r as [|c r]; cbn [digits]; [reflexivity|].
  rewrite Hr. reflexivity.
Qed.

Lemma dec_pos_val : forall f n, 0 <= n < 10 ^ Z.of_nat f -> f <> O -> fst (digits 0 (dec_pos f n)) = n.
Proof.
  induction f as [|f IH]; intros n Hn Hf; [congruence|]. cbn [dec_pos].
  destruct (n <? 10) eqn:E; bsplit.
  - cbn [digits]. rewrite digit_isdigit by lia. cbn [fst]. lia.
  - destruct f as [|f]; [change (10 ^ Z.of_nat 1) with 10 in Hn; lia|].
    assert (Hd : 0 <= n / 10 < 10 ^ Z.of_nat (S f)).
    { split; [apply Z.div_pos; lia|]. apply Z.div_lt_upper_bound; [lia|].
      replace (Z.of_nat (S (S f))) with (Z.of_nat (S f) + 1) in Hn by lia.
      rewrite Z.pow_add_r in Hn by lia. lia. }
    destruct (dec_pos_digs (S f) (n / 10)) as (_ & HF); [lia|discriminate|].
    rewrite digits_app by exact HF. rewrite IH by (exact Hd || discriminate).
    cbn [digits]. pose proof (Z.mod_pos_bound n 10). rewrite digit_isdigit by lia. cbn [fst].
    pose proof (Z.div_mod n 10). lia.
Qed.

Lemma log_fuel : forall n, 0 <= n -> n < 10 ^ Z.of_nat (S (Z.to_nat (Z.log2 n))).
Proof.
  intros n Hn. pose proof (Z.log2_nonneg n). rewrite Nat2Z.inj_succ, Z2Nat.id by lia.
  destruct (Z.eq_dec n 0) as [-> | H0]; [reflexivity|].
  destruct (Z.log2_spec n) as (_ & H1); [lia|].
  eapply Z.lt_le_trans; [exact H1|]. apply Z.pow_le_mono_l. lia.
Qed.

Lemma dec_pos_len : forall f n, (length (dec_pos f n) <= f)%nat.
Proof.
  induction f as [|f IH]; intros n; cbn [dec_pos]; [cbn; lia|].
  destruct (n <? 10); [cbn; lia|]. rewrite app_length. specialize (IH (n / 10)). cbn [length]. lia.
Qed.

Lemma number_digs : forall l, digs l -> number l.
Proof.
  intros l H. replace l with ([] ++ l ++ [] ++ []) by (cbn; rewrite app_nil_r; reflexivity).
  apply number_intro; auto.
Qed.

Lemma dec_number : forall n, number (dec n).
Proof.
  intros n. unfold dec. cbv zeta. destruct (n <? 0) eqn:E; bsplit.
  - change (cMINUS :: ?l) with ([45] ++ l).
    match goal with |- number ([45] ++ ?l) => replace ([45] ++ l) with ([45] ++ l ++ [] ++ [])
      by (cbn [app]; rewrite app_nil_r; reflexivity) end.
    apply number_intro; auto. apply dec_pos_digs; [lia|discriminate].
  - apply number_digs. apply dec_pos_digs; [lia|discriminate].
Qed.

Lemma strtol_digs : forall l r, digs l ->
  (match r with [] => True | c :: _ => isdigit c = false end) ->
  strtol (l ++ r) = (fst (digits 0 l), r).
Proof.
  intros l r (Hne & HF) Hr. destruct l as [|c l]; [congruence|]. inversion HF; subst.
  cbn [app]. unfold strtol. cbn [skipsp].
  replace (isspace c) with false by (unfold isspace; eqbs; reflexivity).
  chars. eqbs. cbn [orb andb].
  apply (digits_end (c :: l) 0 r HF Hr).
Qed.

Lemma strtol_dec : forall n r, (match r with [] => True | c :: _ => isdigit c = false end) ->
  strtol (dec n ++ r) = (n, r).
Proof.
  intros n r Hr. unfold dec. cbv zeta. destruct (n <? 0) eqn:E; bsplit.
  - pose proof (dec_pos_digs (S (Z.to_nat (Z.log2 (- n)))) (- n)) as HD.
    specialize (HD ltac:(lia) ltac:(discriminate)).
    pose proof (dec_pos_val (S (Z.to_nat (Z.log2 (- n)))) (- n)) as HV.
    specialize (HV ltac:(split; [lia|apply log_fuel; lia]) ltac:(discriminate)).
    set (l := dec_pos _ _) in *. destruct HD as (Hne & HF). destruct l as [|c l]; [congruence|].
    inversion HF; subst. cbn [app]. unfold strtol. cbn [skipsp].
    change (isspace cMINUS) with false. cbv iota. change (cMINUS =? cMINUS) with true. cbv iota.
    rewrite digit_isdigit by assumption. cbv zeta.
    change (c :: l ++ r) with ((c :: l) ++ r).
    rewrite (digits_end (c :: l) 0 r HF Hr). cbn [fst snd]. rewrite HV. f_equal. lia.
  - rewrite strtol_digs; [|apply dec_pos_digs; [lia|discriminate]|exact Hr].
    rewrite dec_pos_val; [reflexivity|split; [lia|apply log_fuel; lia]|discriminate].
Qed.

Lemma atoi_dec : forall n, - 2 ^ 31 <= n < 2 ^ 31 -> atoi (dec n) = Some n.
Proof.
  intros n H. unfold atoi. rewrite <- (app_nil_r (dec n)), strtol_dec by exact Logic.I. cbn [fst].
  unfold i32. rewrite (proj2 (Z.leb_le _ _)), (proj2 (Z.ltb_lt _ _)) by lia. reflexivity.
Qed.

Lemma dec_short : forall n, - 2 ^ 31 <= n < 2 ^ 31 -> (length (dec n) <= 62)%nat.
Proof.
  intros n H. unfold dec. cbv zeta.
  assert (L : forall m, 0 <= m <= 2 ^ 31 -> (length (dec_pos (S (Z.to_nat (Z.log2 m))) m) <= 60)%nat).
  { intros m Hm. pose proof (dec_pos_len (S (Z.to_nat (Z.log2 m))) m).
    pose proof (Z.log2_le_mono m (2 ^ 31)). rewrite (Z.log2_pow2 31) in H1 by lia. lia. }
  destruct (n <? 0) eqn:E; bsplit; cbn [length].
  - pose proof (L (- n)). lia.
  - pose proof (L n). lia.
Qed.

Lemma number_ascii : forall l, number l -> Forall (fun c => 0 <= c <= 127) l.
Proof.
  assert (D : forall l, digs l -> Forall (fun c => 0 <= c <= 127) l).
  { intros l (_ & H). eapply Forall_impl; [|exact H]. cbn. lia. }
  intros l [sg i fr ex Hsg Hi Hfr Hex]. rewrite !Forall_app; split; [|split; [|split]].
  - destruct Hsg as [-> | ->]; repeat constructor; lia.
  - apply D; exact Hi.
  - destruct Hfr as [-> | (f & -> & Hf)]; [constructor|constructor; [lia|apply D; exact Hf]].
  - destruct Hex as [-> | (e & s & d & -> & He & Hs & Hd)]; [constructor|constructor; [lia|]].
    apply Forall_app; split; [|apply D; exact Hd].
    destruct Hs as [-> | [-> | ->]]; repeat constructor; lia.
Qed.

(* ------------------------------------------------------------------ *)
(* the streams are sources and sinks *)

Definition file_R (s : file) (l : list Z) : Prop :=
  fst s = l /\ Forall (fun c => 0 <= c <= 255) l.

Lemma file_source : is_source file_stream file_R.
Proof.
  constructor.
  - intros [i o] (H & _). cbn in *. subst. cbn. split; [lia|]. split; [reflexivity|constructor].
  - intros [i o] c l (H & HF). cbn in *. subst. cbn. inversion HF; subst.
    split; [reflexivity|]. split; [assumption|]. split; [split; [reflexivity|assumption]|].
    split; [cbn; rewrite byte_id by lia; reflexivity|exact HF].
Qed.

Definition file_W (s : file) (out : list Z) (n : nat) : Prop := snd s = out.

Lemma file_sink : is_sink file_stream file_W.
Proof.
  intros [i o] out n c H Hc. unfold file_W in *. cbn in *. subst.
  rewrite byte_id by lia. split; [lia|reflexivity].
Qed.

(* the same, with what is still to be read left alone *)
Definition file_W2 (inp : list Z) (s : file) (out : list Z) (n : nat) : Prop := s = (inp, out).
Lemma file_sink2 : forall inp, is_sink file_stream (file_W2 inp).
Proof.
  intros inp [i o] out n c H Hc. unfold file_W2 in *. inversion H; subst. cbn.
  rewrite byte_id by lia. split; [lia|reflexivity].
Qed.

Definition wb_R (w : wstream) (l : list Z) : Prop :=
  0 <= ws_off w <= ws_bytes w /\ skipn (Z.to_nat (ws_off w)) (ws_buf w) = l /\
  Forall (fun c => 0 <= c <= 127) l.

Lemma nth_error_skipn : forall (n : nat) (l : list Z) c r, skipn n l = c :: r -> nth_error l n = Some c.
Proof.
  induction n as [|n IH]; intros l c r H; destruct l as [|a l]; cbn in *; try discriminate.
  - inversion H; reflexivity.
  - eapply IH; exact H.
Qed.

Lemma skipn_S : forall (n : nat) (l : list Z) c r, skipn n l = c :: r -> skipn (S n) l = r.
Proof.
  induction n as [|n IH]; intros l c r H; destruct l as [|a l]; cbn in *; try discriminate.
  - inversion H; reflexivity.
  - eapply IH; exact H.
Qed.

Lemma upd_same : forall (n : nat) (l : list Z) c, nth_error l n = Some c -> upd l n c = l.
Proof.
  induction n as [|n IH]; intros l c H; destruct l as [|a l]; cbn in *; try discriminate.
  - inversion H; reflexivity.
  - rewrite IH by exact H. reflexivity.
Qed.

Lemma upd_length : forall (l : list Z) n c, length (upd l n c) = length l.
Proof. induction l as [|a l IH]; intros [|n] c; cbn; auto. Qed.

Lemma skipn_len : forall (n : nat) (l : list Z), length (skipn n l) = (length l - n)%nat.
Proof. intros. apply skipn_length. Qed.

Lemma wb_source : is_source wbuf_stream wb_R.
Proof.
  constructor.
  - intros [b o] (H & H1 & _). unfold ws_bytes in H. cbn [ws_buf ws_off] in *.
    assert (E : o = Z.of_nat (length b)).
    { pose proof (f_equal (@length Z) H1) as E. rewrite skipn_len in E. cbn in E. lia. }
    cbn. unfold wb_getc, ws_bytes. cbn [ws_buf ws_off]. rewrite (proj2 (Z.ltb_ge o _)) by lia.
    cbn. split; [lia|]. split; [unfold ws_bytes; cbn; lia|]. split; [exact H1|constructor].
  - intros [b o] c l (H & H1 & HF). unfold ws_bytes in H. cbn [ws_buf ws_off] in *.
    inversion HF as [|? ? Hc HF']; subst.
    assert (E : o < Z.of_nat (length b)).
    { pose proof (f_equal (@length Z) H1) as E. rewrite skipn_len in E. cbn in E. lia. }
    assert (N : nth_error b (Z.to_nat o) = Some c) by (eapply nth_error_skipn; exact H1).
    assert (G : getc wbuf_stream (mkws b o) = (c, mkws b (o + 1))).
    { cbn. unfold wb_getc, ws_bytes, ld. cbn [ws_buf ws_off].
      rewrite (proj2 (Z.ltb_lt o _)) by lia. rewrite (proj2 (Z.leb_le 0 o)) by lia. cbn [andb].
      rewrite N. cbn [obind or_same]. unfold schar. rewrite (proj2 (Z.ltb_lt c 128)) by lia. reflexivity. }
    rewrite G. cbn [fst snd].
    split; [reflexivity|]. split; [lia|]. split.
    + split; [unfold ws_bytes; cbn; lia|]. cbn [ws_buf ws_off]. split; [|exact HF'].
      replace (Z.to_nat (o + 1)) with (S (Z.to_nat o)) by lia. eapply skipn_S; exact H1.
    + cbn. unfold wb_ungetc. cbn [ws_buf ws_off]. rewrite (proj2 (Z.ltb_lt 0 _)) by lia.
      unfold st. replace (o + 1 - 1) with o by lia.
      rewrite (proj2 (Z.leb_le 0 o)), (proj2 (Z.ltb_lt o _)) by lia. cbn [andb obind].
      rewrite byte_id by lia. rewrite upd_same by exact N.
      split; [unfold ws_bytes; cbn; lia|]. split; [exact H1|exact HF].
Qed.

(* out has been written from position p on, the rest of the buffer is as in b0 *)
Definition wb_W (b0 : list Z) (p : nat) (w : wstream) (out : list Z) (n : nat) : Prop :=
  ws_buf w = firstn p b0 ++ out ++ skipn (p + length out) b0 /\
  ws_off w = Z.of_nat (p + length out) /\ (p + length out + n <= length b0)%nat.

Lemma upd_app : forall (a b : list Z) c, upd (a ++ b) (length a) c = a ++ upd b 0 c.
Proof. induction a as [|x a IH]; intros b c; cbn; [reflexivity|]. rewrite IH. reflexivity. Qed.

Lemma wb_sink : forall b0 p, is_sink wbuf_stream (wb_W b0 p).
Proof.
  intros b0 p [b o] out n c (H1 & H2 & H3) Hc. cbn [ws_buf ws_off] in *. subst b o.
  assert (LA : length (firstn p b0) = p) by (rewrite firstn_length; lia).
  set (b := firstn p b0 ++ out ++ skipn (p + length out) b0) in *.
  assert (LB : length b = length b0).
  { unfold b. rewrite !app_length, LA, skipn_len. lia. }
  assert (G : putc wbuf_stream (mkws b (Z.of_nat (p + length out))) c =
    (c, mkws (upd b (p + length out) c) (Z.of_nat (p + length out) + 1))).
  { cbn. unfold wb_putc, ws_bytes, st. cbn [ws_buf ws_off].
    rewrite (proj2 (Z.ltb_lt _ _)) by lia. rewrite (proj2 (Z.leb_le 0 _)) by lia. cbn [andb obind or_same].
    rewrite byte_id by lia. rewrite Nat2Z.id. reflexivity. }
  rewrite G. cbn [fst snd]. split; [lia|]. unfold wb_W. cbn [ws_buf ws_off].
  rewrite app_length. cbn [length]. split; [|split; [lia|lia]].
  unfold b. rewrite app_assoc.
  replace (p + length out)%nat with (length (firstn p b0 ++ out)) at 2 by (rewrite app_length, LA; reflexivity).
  rewrite upd_app. rewrite <- !app_assoc. f_equal. f_equal.
  destruct (skipn (p + length out) b0) as [|x r] eqn:E.
  - pose proof (f_equal (@length Z) E) as E2. rewrite skipn_len in E2. cbn in E2. lia.
  - cbn [upd app]. f_equal. replace (p + (length out + 1))%nat with (S (p + length out)) by lia.
    symmetry. eapply skipn_S; exact E.
Qed.

(* ------------------------------------------------------------------ *)
(* writing *)

Section Write.
  Context {S : Type} (io : stream S) (W : S -> list Z -> nat -> Prop) (snk : is_sink io W).

  Definition writes (f : S -> Z * S) (l : list Z) : Prop :=
    forall x out n, W x out (length l + n) -> exists x', f x = (0, x') /\ W x' (out ++ l) n.

  Lemma puts_writes : forall l, Forall (fun c => 0 <= c <= 127) l -> writes (puts io l) l.
  Proof.
    induction l as [|c l IH]; intros HF x out n H; inversion HF; subst.
    - exists x. rewrite app_nil_r. split; [reflexivity|exact H].
    - cbn [length Nat.add] in H. destruct (snk x out _ c H) as (G1 & G2); [assumption|].
      destruct (IH ltac:(assumption) _ _ _ G2) as (x' & E & H').
      exists x'. cbn [puts]. cbv zeta. rewrite (proj2 (Z.ltb_ge _ 0)) by lia.
      split; [exact E|]. rewrite <- app_assoc in H'. exact H'.
  Qed.

  Lemma seqw_writes : forall f g l r, writes f l -> writes g r -> writes (seqw f g) (l ++ r).
  Proof.
    intros f g l r Hf Hg x out n H. rewrite app_length, <- Nat.add_assoc in H.
    destruct (Hf x out _ H) as (x1 & E1 & H1). destruct (Hg x1 _ n H1) as (x2 & E2 & H2).
    exists x2. unfold seqw. cbv zeta. rewrite E1. cbn [fst snd]. change (0 <? 0) with false. cbv iota.
    split; [exact E2|]. rewrite app_assoc. exact H2.
  Qed.

  Lemma skip_writes : writes (fun x => (0, x)) [].
  Proof. intros x out n H. exists x. rewrite app_nil_r. split; [reflexivity|exact H]. Qed.

  Lemma string_writes : forall s len, 
    Forall (fun c => 0 <= c <= 127) (flat_map escape (strchars s len)) ->
    writes (json_write_string io s len) (34 :: flat_map escape (strchars s len) ++ [34]).
  Proof.
    intros s len HF x out n H. unfold json_write_string. cbv zeta.
    cbn [length Nat.add] in H. destruct (snk x out _ cQUOTE H) as (_ & G2); [unfold cQUOTE; lia|].
    rewrite app_length, <- Nat.add_assoc in G2.
    destruct (puts_writes _ HF _ _ _ G2) as (x1 & E1 & H1). rewrite E1. cbn [fst snd].
    change (0 <? 0) with false. cbv iota.
    destruct (puts_writes [cQUOTE] ltac:(repeat constructor; unfold cQUOTE; lia) _ _ _ H1) as (x2 & E2 & H2).
    exists x2. split; [exact E2|]. rewrite <- !app_assoc in H2. exact H2.
  Qed.

  Lemma escape_quoted : forall s, Forall (fun c => 32 <= c <= 126 \/ In c [8; 9; 10; 13]) s ->
    quoted s (flat_map escape s) /\ Forall (fun c => 0 <= c <= 127) (flat_map escape s) /\
    cstr s = s.
  Proof.
    induction 1 as [|c s Hc HF (IH1 & IH2 & IH3)]; [split; [constructor|split; [constructor|reflexivity]]|].
    assert (C0 : c <> 0) by (destruct Hc as [Hc|Hc]; [lia|cbn in Hc; lia]).
    split; [|split; [|cbn [cstr]; rewrite (proj2 (Z.eqb_neq c 0)) by exact C0; rewrite IH3; reflexivity]];
    cbn [flat_map]; unfold escape at 1; chars;
    repeat match goal with
      | |- context [if ?a =? ?b then _ else _] => destruct (Z.eqb_spec a b); [subst|]
      end.
    all: try (cbn [app]; apply q_esc; [cbn; tauto|exact IH1]).
    all: try (cbn [app]; repeat constructor; try lia; exact IH2).
    - assert (32 <= c <= 126) by (destruct Hc as [Hc|Hc]; [lia|cbn in Hc; lia]).
      replace ((c <? 32) || (c =? 127)) with false by (eqbs; reflexivity).
      cbn [app]. apply q_plain; try lia. exact IH1.
    - assert (32 <= c <= 126) by (destruct Hc as [Hc|Hc]; [lia|cbn in Hc; lia]).
      apply Forall_app. split; [|exact IH2].
      replace ((c <? 32) || (c =? 127)) with false by (eqbs; reflexivity).
      constructor; [lia|constructor].
  Qed.
End Write.
