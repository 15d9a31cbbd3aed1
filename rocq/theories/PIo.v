(* PIo.v: lemmas about the streams and the JSON token reader. *)
From Coq Require Import String Ascii.
From Coq Require Import ZArith Bool List Lia.
From Verif Require Import MBase MIo SpecJson.
Import ListNotations.
Local Open Scope Z_scope.

Ltac bsplit := repeat match goal with
  | H : (_ && _)%bool = true |- _ => apply andb_true_iff in H; destruct H
  | H : (_ || _)%bool = false |- _ => apply orb_false_iff in H; destruct H
  | H : (_ =? _) = true |- _ => apply Z.eqb_eq in H
  | H : (_ =? _) = false |- _ => apply Z.eqb_neq in H
  | H : (_ <=? _) = true |- _ => apply Z.leb_le in H
  | H : (_ <=? _) = false |- _ => apply Z.leb_gt in H
  | H : (_ <? _) = true |- _ => apply Z.ltb_lt in H
  | H : (_ <? _) = false |- _ => apply Z.ltb_ge in H
  end.

Lemma u64_small : forall x, 0 <= x < 2 ^ 64 -> u64 x = x.
Proof. intros x H. unfold u64. apply Z.mod_small; lia. Qed.

Lemma byte_id : forall c, 0 <= c <= 255 -> byte c = c.
Proof. intros c H. unfold byte. apply Z.mod_small; lia. Qed.

Lemma digit_isdigit : forall c, 48 <= c <= 57 -> isdigit c = true.
Proof. intros c H. unfold isdigit. apply andb_true_iff; split; apply Z.leb_le; lia. Qed.

Ltac eqbs := repeat match goal with
  | |- context [?a =? ?b] =>
      first [ rewrite (proj2 (Z.eqb_neq a b)) by lia | rewrite (proj2 (Z.eqb_eq a b)) by lia ]
  | |- context [?a <? ?b] =>
      first [ rewrite (proj2 (Z.ltb_lt a b)) by lia | rewrite (proj2 (Z.ltb_ge a b)) by lia ]
  | |- context [?a <=? ?b] =>
      first [ rewrite (proj2 (Z.leb_le a b)) by lia | rewrite (proj2 (Z.leb_gt a b)) by lia ]
  end.
Ltac chars := unfold is_delim, is_punct, is_ws, isdigit, isxdigit, iscntrl,
  cQUOTE, cBSL, cSLASH, cCOMMA, cCOLON, cLBR, cRBR, cLBC, cRBC, cMINUS, cPLUS, cDOT, cSP, cTAB,
  cNL, cCR, cBS in *.

Section Read.
  Context {S : Type} (io : stream S) (R : S -> list Z -> Prop) (src : is_source io R).

  (* one pass of the loop *)
  Lemma rt_go : forall fuel len s frac lit b x c l s' frac' lit' b',
    R x (c :: l) -> (length (c :: l) < fuel)%nat ->
    jstep len s frac lit b c = Some (Go s' frac' lit' b') ->
    Z.of_nat (length b') < u64 (len - 1) ->
    exists fuel' x', R x' l /\ (length l < fuel')%nat /\
      rt_loop io fuel len s frac lit b x = rt_loop io fuel' len s' frac' lit' b' x'.
  Proof.
    intros fuel len s frac lit b x c l s' frac' lit' b' HR Hf Hs Hb.
    destruct fuel as [|fuel]; [simpl in Hf; lia|].
    destruct (src_get io R src x c l HR) as (Hc & Hr & HR' & _).
    exists fuel, (snd (getc io x)). split; [exact HR'|]. split; [simpl in Hf; lia|].
    cbn [rt_loop]. rewrite Hc. rewrite (proj2 (Z.ltb_ge c 0)) by lia. rewrite Hs.
    cbn [obind]. rewrite (proj2 (Z.leb_gt _ _)) by lia. reflexivity.
  Qed.

  Lemma rt_stop : forall fuel len s frac lit b x c l t b' u,
    R x (c :: l) -> (length (c :: l) < fuel)%nat ->
    jstep len s frac lit b c = Some (Stop t b' u) ->
    exists x', R x' (if u then c :: l else l) /\
      (u = false -> R (ungetc io x' c) (c :: l)) /\
      rt_loop io fuel len s frac lit b x = Some (t, b', x').
  Proof.
    intros fuel len s frac lit b x c l t b' u HR Hf Hs.
    destruct fuel as [|fuel]; [simpl in Hf; lia|].
    destruct (src_get io R src x c l HR) as (Hc & Hr & HR' & HU).
    exists (if u then ungetc io (snd (getc io x)) c else snd (getc io x)).
    split; [destruct u; assumption|].
    split; [intros ->; exact HU|].
    cbn [rt_loop]. rewrite Hc. rewrite (proj2 (Z.ltb_ge c 0)) by lia. rewrite Hs. reflexivity.
  Qed.

  Lemma putb_ok : forall len b c, 0 <= c <= 255 -> Z.of_nat (length b) < len ->
    putb len b c = Some (b ++ [c]).
  Proof.
    intros len b c Hc H. unfold putb. rewrite (proj2 (Z.ltb_lt _ _)) by lia.
    rewrite byte_id by lia. reflexivity.
  Qed.

  (* a character put into the buffer *)
  Lemma rt_put : forall fuel len s frac lit b x c l s' frac' lit' c',
    2 <= len < 2 ^ 64 ->
    R x (c :: l) -> (length (c :: l) < fuel)%nat -> 0 <= c' <= 255 ->
    jstep len s frac lit b c = jput len b c' (Go s' frac' lit') ->
    Z.of_nat (length b) + 1 <= len - 2 ->
    exists fuel' x', R x' l /\ (length l < fuel')%nat /\
      rt_loop io fuel len s frac lit b x = rt_loop io fuel' len s' frac' lit' (b ++ [c']) x'.
  Proof.
    intros fuel len s frac lit b x c l s' frac' lit' c' Hl HR Hf Hc' Hs Hb.
    eapply rt_go; [exact HR|exact Hf| |].
    - rewrite Hs. unfold jput. rewrite putb_ok by lia. reflexivity.
    - rewrite app_length, u64_small by lia. simpl. lia.
  Qed.

  Lemma term_ok : forall len b, Z.of_nat (length b) < len -> term len b = Some b.
  Proof. intros len b H. unfold term. rewrite (proj2 (Z.ltb_lt _ _)) by lia. reflexivity. Qed.

  (* digits in a state that stores them and stays *)
  Lemma rt_digits : forall len s frac lit ds fuel b x t,
    2 <= len < 2 ^ 64 -> s = NUMBER \/ s = EXP1 ->
    Forall (fun c => 48 <= c <= 57) ds -> R x (ds ++ t) -> (length (ds ++ t) < fuel)%nat ->
    Z.of_nat (length b) + Z.of_nat (length ds) <= len - 2 ->
    exists fuel' x', R x' t /\ (length t < fuel')%nat /\
      rt_loop io fuel len s frac lit b x = rt_loop io fuel' len s frac lit (b ++ ds) x'.
  Proof.
    intros len s frac lit ds. induction ds as [|c ds IH]; intros fuel b x t Hl Hs HF HR Hf Hb.
    - exists fuel, x. rewrite app_nil_r. split; [exact HR|]. split; [exact Hf|reflexivity].
    - inversion HF as [|? ? Hc HF']; subst. cbn [app] in HR, Hf.
      cbn [length] in Hb.
      destruct (rt_put fuel len s frac lit b x c (ds ++ t) s frac lit c Hl HR Hf)
        as (f1 & x1 & R1 & F1 & E1); [lia| |lia|].
      { destruct Hs as [-> | ->]; unfold jstep; chars; eqbs; reflexivity. }
      destruct (IH f1 (b ++ [c]) x1 t Hl Hs HF' R1 F1) as (f2 & x2 & R2 & F2 & E2).
      { rewrite app_length; simpl; lia. }
      exists f2, x2. split; [exact R2|]. split; [exact F2|]. rewrite E1, E2, <- app_assoc. reflexivity.
  Qed.

  (* the end of a number *)
  Lemma rt_num_end : forall len s frac lit fuel b x t,
    2 <= len < 2 ^ 64 -> s = NUMBER \/ s = EXP1 -> R x t -> (length t < fuel)%nat ->
    delimited t -> Z.of_nat (length b) <= len - 2 ->
    exists x', R x' t /\ rt_loop io fuel len s frac lit b x = Some (J_NUMBER, b, x').
  Proof.
    intros len s frac lit fuel b x t Hl Hs HR Hf Hd Hb. destruct t as [|c t].
    - destruct fuel as [|fuel]; [simpl in Hf; lia|].
      destruct (src_end io R src x HR) as (H1 & H2). exists (snd (getc io x)). split; [exact H2|].
      cbn [rt_loop]. rewrite (proj2 (Z.ltb_lt _ _)) by lia.
      destruct Hs as [-> | ->]; rewrite term_ok by lia; reflexivity.
    - cbn in Hd.
      assert (D : is_delim c = true).
      { unfold is_delim. chars.
        repeat match type of Hd with _ \/ _ => destruct Hd as [Hd | Hd] | False => destruct Hd end;
          subst c; reflexivity. }
      destruct (rt_stop fuel len s frac lit b x c t J_NUMBER b true HR Hf) as (x1 & R1 & _ & E1).
      { destruct Hs as [-> | ->]; unfold jstep; rewrite D, term_ok by lia; reflexivity. }
      exists x1. split; [exact R1|exact E1].
  Qed.

  (* a number, from the first character on *)
  Lemma rt_number : forall len d fuel x t,
    2 <= len < 2 ^ 64 -> number d -> delimited t -> R x (d ++ t) -> (length (d ++ t) < fuel)%nat ->
    Z.of_nat (length d) <= len - 2 ->
    exists x', R x' t /\ rt_loop io fuel len VALUE false [] [] x = Some (J_NUMBER, d, x').
  Proof.
    intros len d fuel x t Hl HN Hd HR Hf Hb.
    destruct HN as [sg i fr ex Hsg Hi Hfr Hex].
    rewrite <- !app_assoc in HR, Hf. rewrite !app_length in Hb.
    (* sign and first digits: NUMBER with sg ++ i *)
    assert (S1 : exists f1 x1, R x1 (fr ++ ex ++ t) /\ (length (fr ++ ex ++ t) < f1)%nat /\
      rt_loop io fuel len VALUE false [] [] x = rt_loop io f1 len NUMBER false [] (sg ++ i) x1).
    { destruct Hi as (Hne & HF). destruct Hsg as [-> | ->].
      - destruct i as [|c i]; [congruence|]. inversion HF as [|? ? Hc HF']; subst.
        cbn [app] in HR, Hf. cbn [length app] in Hb.
        destruct (rt_put fuel len VALUE false [] [] x c _ NUMBER false [] c Hl HR Hf)
          as (f1 & x1 & R1 & F1 & E1); [lia| |cbn [length]; lia|].
        { unfold jstep. chars. eqbs. reflexivity. }
        destruct (rt_digits len NUMBER false [] i f1 [c] x1 _ Hl (or_introl eq_refl) HF' R1 F1)
          as (f2 & x2 & R2 & F2 & E2); [cbn [length]; lia|].
        exists f2, x2. split; [exact R2|]. split; [exact F2|]. cbn [app] in E1, E2 |- *.
        rewrite E1, E2. reflexivity.
      - cbn [app] in HR, Hf. cbn [length app] in Hb.
        destruct (rt_put fuel len VALUE false [] [] x 45 _ NUMBER false [] 45 Hl HR Hf)
          as (f1 & x1 & R1 & F1 & E1); [lia|reflexivity|cbn [length]; lia|].
        destruct (rt_digits len NUMBER false [] i f1 [45] x1 _ Hl (or_introl eq_refl) HF R1 F1)
          as (f2 & x2 & R2 & F2 & E2); [cbn [length]; lia|].
        exists f2, x2. split; [exact R2|]. split; [exact F2|]. cbn [app] in E1, E2 |- *.
        rewrite E1, E2. reflexivity. }
    destruct S1 as (f1 & x1 & R1 & F1 & E1).
    assert (S2 : exists f2 x2 frac, R x2 (ex ++ t) /\ (length (ex ++ t) < f2)%nat /\
      rt_loop io f1 len NUMBER false [] (sg ++ i) x1 =
      rt_loop io f2 len NUMBER frac [] ((sg ++ i) ++ fr) x2).
    { destruct Hfr as [-> | (f & -> & Hne & HF)].
      - exists f1, x1, false. rewrite app_nil_r. split; [exact R1|]. split; [exact F1|reflexivity].
      - cbn [app] in R1, F1. cbn [length] in Hb.
        destruct (rt_put f1 len NUMBER false [] (sg ++ i) x1 46 _ NUMBER true [] 46 Hl R1 F1)
          as (f2 & x2 & R2 & F2 & E2); [lia|reflexivity|rewrite app_length; lia|].
        destruct (rt_digits len NUMBER true [] f f2 ((sg ++ i) ++ [46]) x2 _ Hl (or_introl eq_refl) HF R2 F2)
          as (f3 & x3 & R3 & F3 & E3); [rewrite !app_length; cbn [length]; lia|].
        exists f3, x3, true. split; [exact R3|]. split; [exact F3|].
        rewrite E2, E3, <- app_assoc. reflexivity. }
    destruct S2 as (f2 & x2 & frac & R2 & F2 & E2).
    rewrite E1, E2. rewrite <- app_assoc.
    destruct Hex as [-> | (e & s & d & -> & He & Hs & Hne & HF)].
    - cbn [app] in R2, F2. rewrite app_nil_r.
      destruct (rt_num_end len NUMBER frac [] f2 (sg ++ i ++ fr) x2 t Hl (or_introl eq_refl) R2 F2 Hd)
        as (x3 & R3 & E3); [rewrite !app_length; cbn [length] in Hb; lia|].
      exists x3. split; [exact R3|exact E3].
    - cbn [app] in R2, F2. cbn [length] in Hb. rewrite app_length in Hb.
      rewrite <- app_assoc in R2, F2.
      destruct (rt_put f2 len NUMBER frac [] (sg ++ i ++ fr) x2 e _ EXP frac [] e Hl R2 F2)
        as (f3 & x3 & R3 & F3 & E3);
        [destruct He; lia|destruct He; subst e; reflexivity|rewrite !app_length; lia|].
      assert (S3 : exists f4 x4, R x4 (d ++ t) /\ (length (d ++ t) < f4)%nat /\
        rt_loop io f3 len EXP frac [] ((sg ++ i ++ fr) ++ [e]) x3 =
        rt_loop io f4 len EXP frac [] (((sg ++ i ++ fr) ++ [e]) ++ s) x4).
      { destruct Hs as [-> | Hs].
        - exists f3, x3. rewrite app_nil_r. split; [exact R3|]. split; [exact F3|reflexivity].
        - assert (exists c, s = [c] /\ (c = 43 \/ c = 45)) as (c & -> & Hc)
            by (destruct Hs as [-> | ->]; eexists; split; eauto).
          cbn [app] in R3, F3. cbn [length] in Hb.
          destruct (rt_put f3 len EXP frac [] ((sg ++ i ++ fr) ++ [e]) x3 c _ EXP frac [] c Hl R3 F3)
            as (f4 & x4 & R4 & F4 & E4);
            [destruct Hc; lia|destruct Hc; subst c; reflexivity|rewrite !app_length; cbn [length]; lia|].
          exists f4, x4. split; [exact R4|]. split; [exact F4|exact E4]. }
      destruct S3 as (f4 & x4 & R4 & F4 & E4).
      destruct d as [|c d]; [congruence|]. inversion HF as [|? ? Hc HF']; subst.
      cbn [app] in R4, F4. cbn [length] in Hb.
      destruct (rt_put f4 len EXP frac [] (((sg ++ i ++ fr) ++ [e]) ++ s) x4 c _ EXP1 frac [] c Hl R4 F4)
        as (f5 & x5 & R5 & F5 & E5); [lia| |rewrite !app_length; cbn [length]; lia|].
      { unfold jstep. chars. eqbs. reflexivity. }
      destruct (rt_digits len EXP1 frac [] d f5 ((((sg ++ i ++ fr) ++ [e]) ++ s) ++ [c]) x5 t Hl (or_intror eq_refl) HF' R5 F5)
        as (f6 & x6 & R6 & F6 & E6); [rewrite !app_length; cbn [length]; lia|].
      destruct (rt_num_end len EXP1 frac [] f6 (((((sg ++ i ++ fr) ++ [e]) ++ s) ++ [c]) ++ d) x6 t Hl (or_intror eq_refl) R6 F6 Hd)
        as (x7 & R7 & E7); [|exists x7; split; [exact R7|]].
      2:{ rewrite E3, E4, E5, E6, E7. repeat rewrite <- app_assoc. reflexivity. }
      rewrite !app_length; cbn [length]; lia.
  Qed.

  Lemma quoted_len : forall s q, quoted s q -> (length s <= length q)%nat.
  Proof. induction 1; simpl in *; lia. Qed.

  Lemma rt_string : forall len s q, quoted s q -> forall fuel b x t frac lit,
    2 <= len < 2 ^ 64 -> R x (q ++ 34 :: t) -> (length (q ++ 34%Z :: t) < fuel)%nat ->
    Z.of_nat (length b) + Z.of_nat (length s) <= len - 2 ->
    exists x', R x' t /\ rt_loop io fuel len STRING frac lit b x = Some (J_STRING, b ++ s, x').
  Proof.
    intros len s q HQ. induction HQ as [|c s q H1 H2 H3 HQ IH|c e s q HI HQ IH];
      intros fuel b x t frac lit Hl HR Hf Hb.
    - cbn [app] in HR, Hf. rewrite app_nil_r. cbn [length] in Hb.
      destruct (rt_stop fuel len STRING frac lit b x 34 t J_STRING b false HR Hf) as (x1 & R1 & _ & E1).
      { unfold jstep. change (34 =? cQUOTE) with true. cbv iota. rewrite term_ok by lia. reflexivity. }
      exists x1. split; [exact R1|exact E1].
    - cbn [app] in HR, Hf. cbn [length] in Hb.
      destruct (rt_put fuel len STRING frac lit b x c _ STRING frac lit c Hl HR Hf)
        as (f1 & x1 & R1 & F1 & E1); [lia| |lia|].
      { unfold jstep. chars. eqbs. reflexivity. }
      destruct (IH f1 (b ++ [c]) x1 t frac lit Hl R1 F1) as (x2 & R2 & E2);
        [rewrite app_length; cbn [length]; lia|].
      exists x2. split; [exact R2|]. rewrite E1, E2, <- app_assoc. reflexivity.
    - cbn [app] in HR, Hf. cbn [length] in Hb.
      destruct (rt_go fuel len STRING frac lit b x 92 _ ESCAPE frac lit b HR Hf)
        as (f0 & x0 & R0 & F0 & E0); [reflexivity|rewrite u64_small; lia|].
      destruct (rt_put f0 len ESCAPE frac lit b x0 e _ STRING frac lit c Hl R0 F0)
        as (f1 & x1 & R1 & F1 & E1); [| |lia|].
      { cbn in HI. repeat match type of HI with _ \/ _ => destruct HI as [HI | HI] | False => destruct HI end;
          inversion HI; subst; lia. }
      { cbn in HI. repeat match type of HI with _ \/ _ => destruct HI as [HI | HI] | False => destruct HI end;
          inversion HI; subst; reflexivity. }
      destruct (IH f1 (b ++ [c]) x1 t frac lit Hl R1 F1) as (x2 & R2 & E2);
        [rewrite app_length; cbn [length]; lia|].
      exists x2. split; [exact R2|]. rewrite E0, E1, E2, <- app_assoc. reflexivity.
  Qed.

  (* the next token of a text *)
  Lemma rt_spells : forall len t ks rest, spells t ks rest -> forall k ks' fuel x,
    ks = k :: ks' -> 2 <= len < 2 ^ 64 -> Z.of_nat (length (tok_text k)) <= len - 2 ->
    R x t -> (length t < fuel)%nat ->
    exists x' t', spells t' ks' rest /\ R x' t' /\ (length t' < length t)%nat /\
      (forall c, k = TPunct c -> R (ungetc io x' c) (c :: t')) /\
      rt_loop io fuel len VALUE false [] [] x = Some (tok_code k, tok_text k, x').
  Proof.
    intros len t ks rest HS.
    induction HS as [t|w t k0 ks rest Hw HS IH|c t ks rest Hc HS IH|d t ks rest HN Hd HS IH
      |s q t ks rest HQ HS IH|t ks rest HS IH|t ks rest HS IH|t ks rest HS IH];
      intros k ks' fuel x Hk Hl Hb HR Hf; inversion Hk; subst.
    - destruct (rt_go fuel len VALUE false [] [] x w t VALUE false [] [] HR Hf)
        as (f1 & x1 & R1 & F1 & E1).
      { cbn in Hw. repeat match type of Hw with _ \/ _ => destruct Hw as [Hw | Hw] | False => destruct Hw end;
          subst w; reflexivity. }
      { rewrite u64_small; cbn [length]; lia. }
      destruct (IH k ks' f1 x1 eq_refl Hl Hb R1 F1) as (x2 & t2 & S2 & R2 & L2 & U2 & E2).
      exists x2, t2. split; [exact S2|]. split; [exact R2|]. split; [cbn [length]; lia|].
      split; [exact U2|].
      rewrite E1. exact E2.
    - destruct (rt_stop fuel len VALUE false [] [] x c t c [] false HR Hf) as (x1 & R1 & U1 & E1).
      { cbn in Hc. repeat match type of Hc with _ \/ _ => destruct Hc as [Hc | Hc] | False => destruct Hc end;
          subst c; reflexivity. }
      exists x1, t. split; [exact HS|]. split; [exact R1|]. split; [cbn [length]; lia|].
      split; [intros c' Hc'; inversion Hc'; subst; apply U1; reflexivity|exact E1].
    - destruct (rt_number len d fuel x t Hl HN Hd HR Hf Hb) as (x1 & R1 & E1).
      exists x1, t. split; [exact HS|]. split; [exact R1|]. split; [|split; [discriminate|exact E1]].
      rewrite app_length. destruct HN as [sg i fr ex _ (Hi & _) _ _].
      rewrite !app_length. destruct i; [congruence|cbn [length]; lia].
    - destruct (rt_go fuel len VALUE false [] [] x 34 _ STRING false [] [] HR Hf)
        as (f1 & x1 & R1 & F1 & E1); [reflexivity|rewrite u64_small; cbn [length]; lia|].
      destruct (rt_string len s q HQ f1 [] x1 t false [] Hl R1 F1) as (x2 & R2 & E2);
        [cbn [length tok_text] in *; lia|].
      exists x2, t. split; [exact HS|]. split; [exact R2|].
      split; [cbn [length]; rewrite app_length; cbn [length]; lia|].
      split; [discriminate|].
      rewrite E1. exact E2.
    - cbn in HR, Hf.
      destruct (rt_go fuel len VALUE false [] [] x _ _ TRUE false [] [] HR Hf)
        as (f1 & x1 & R1 & F1 & E1); [reflexivity|rewrite u64_small; cbn [length]; lia|].
      destruct (rt_go f1 len TRUE false [] [] x1 _ _ TRUE1 false [] [] R1 F1)
        as (f2 & x2 & R2 & F2 & E2); [reflexivity|rewrite u64_small; cbn [length]; lia|].
      destruct (rt_go f2 len TRUE1 false [] [] x2 _ _ TRUE2 false [] [] R2 F2)
        as (f3 & x3 & R3 & F3 & E3); [reflexivity|rewrite u64_small; cbn [length]; lia|].
      destruct (rt_stop f3 len TRUE2 false [] [] x3 _ _ J_TRUE [] false R3 F3)
        as (x4 & R4 & _ & E4); [reflexivity|].
      exists x4, t. split; [exact HS|]. split; [exact R4|]. split; [cbn; lia|].
      split; [discriminate|].
      rewrite E1, E2, E3. exact E4.
    - cbn in HR, Hf.
      destruct (rt_go fuel len VALUE false [] [] x _ _ FALSE false [] [] HR Hf)
        as (f1 & x1 & R1 & F1 & E1); [reflexivity|rewrite u64_small; cbn [length]; lia|].
      destruct (rt_go f1 len FALSE false [] [] x1 _ _ FALSE1 false [] [] R1 F1)
        as (f2 & x2 & R2 & F2 & E2); [reflexivity|rewrite u64_small; cbn [length]; lia|].
      destruct (rt_go f2 len FALSE1 false [] [] x2 _ _ FALSE2 false [] [] R2 F2)
        as (f3 & x3 & R3 & F3 & E3); [reflexivity|rewrite u64_small; cbn [length]; lia|].
      destruct (rt_go f3 len FALSE2 false [] [] x3 _ _ FALSE3 false [] [] R3 F3)
        as (f4 & x4 & R4 & F4 & E4); [reflexivity|rewrite u64_small; cbn [length]; lia|].
      destruct (rt_stop f4 len FALSE3 false [] [] x4 _ _ J_FALSE [] false R4 F4)
        as (x5 & R5 & _ & E5); [reflexivity|].
      exists x5, t. split; [exact HS|]. split; [exact R5|]. split; [cbn; lia|].
      split; [discriminate|].
      rewrite E1, E2, E3, E4. exact E5.
    - cbn in HR, Hf.
      destruct (rt_go fuel len VALUE false [] [] x _ _ NULL false [] [] HR Hf)
        as (f1 & x1 & R1 & F1 & E1); [reflexivity|rewrite u64_small; cbn [length]; lia|].
      destruct (rt_go f1 len NULL false [] [] x1 _ _ NULL1 false [] [] R1 F1)
        as (f2 & x2 & R2 & F2 & E2); [reflexivity|rewrite u64_small; cbn [length]; lia|].
      destruct (rt_go f2 len NULL1 false [] [] x2 _ _ NULL2 false [] [] R2 F2)
        as (f3 & x3 & R3 & F3 & E3); [reflexivity|rewrite u64_small; cbn [length]; lia|].
      destruct (rt_stop f3 len NULL2 false [] [] x3 _ _ J_NULL [] false R3 F3)
        as (x4 & R4 & _ & E4); [reflexivity|].
      exists x4, t. split; [exact HS|]. split; [exact R4|]. split; [cbn; lia|].
      split; [discriminate|].
      rewrite E1, E2, E3. exact E4.
  Qed.
End Read.
