(** Properties C03, C04: tokenisation. *)
From Coq Require Import String.
From Verif Require Import Base Regex LexRules Lexer LexSpec LitSpec LexThms LexWs ValueSpec SpellSpec TokenSpec TokenFacts.
Local Open Scope Z_scope.

(** C03.  Tokens, skipped white space and lexical-error fragments, in order,
    leave no gap and do not overlap; together they are the query. *)
Theorem C03_tiles : forall q : pystr,
  concat (map lx_text (lexemes q)) = q /\
  tiles 0 q (lexemes q).
Proof. intros q. split; [eapply tiles_concat|]; apply lexemes_tiles. Qed.

(** C03.  Every token's text is [query[start:stop+1]]; tokens come in order. *)
Theorem C03_token_text : forall (q : pystr) (t : token), In t (lx_tokens (lexemes q)) ->
  0 <= t_start t <= t_stop t /\ t_stop t < zlen q /\ slice q (t_start t) (t_stop t + 1) = t_text t.
Proof. exact token_bounds. Qed.
Theorem C03_token_order : forall (q : pystr) (pre post : list token) (a b : token),
  lx_tokens (lexemes q) = pre ++ a :: b :: post -> t_stop a < t_start b.
Proof.
  intros q pre post a b H. pose proof (lexf_ordered q 0 1 0) as Ho. rewrite <- lexemes_lexf, H in Ho.
  clear H. revert Ho. generalize 0. induction pre as [|x pre IH]; intros p Ho; cbn [app ordered] in Ho; [lia|].
  destruct Ho as [_ Ho]. eapply IH. exact Ho.
Qed.
Example C03_witness : concat (map lx_text (lexemes (u "[a = 'b'] within #s"))) = u "[a = 'b'] within #s" /\
  List.length (lx_tokens (lexemes (u "[a = 'b'] within #s"))) = 7%nat.
Proof. vm_compute. auto. Qed.

(** C04.  A token (or a skipped space) is the longest prefix of the rest of the
    query that can be read as a token, its type the preferred reading. *)
Lemma lexeme_longest : forall s before l1 l l2 pos line col, lexf pos line col s = l1 ++ l :: l2 ->
  s = before ++ concat (map lx_text (l :: l2)) -> before = concat (map lx_text l1) ->
  match l with
  | LxTok t | LxSkip t => longest_match (concat (map lx_text (l :: l2))) (t_type t) (t_text t)
  | LxErr _ _ _ bad => no_match (concat (map lx_text (l :: l2))) /\ (l2 = [] \/ forall w, ~ matched (bad ++ w))
  end.
Proof.
  induction s as [s IH] using text_ind. intros before l1 l l2 pos line col H Hs Hb.
  destruct (list_eq_dec N.eq_dec s []) as [->|Hne]; [rewrite lexf_nil in H; destruct l1; discriminate|].
  destruct (lexf_cases pos line col s Hne) as [(ty & w & rest & -> & Hlm & He)|(bad & rest & -> & Hbad & Hno & Hdead & He)].
  - rewrite He in H. destruct l1 as [|x l1].
    + injection H as Hl Hl2. subst before. cbn [concat map app] in Hs. cbn [concat map].
      assert (Hw : t_type (match l with LxTok t | LxSkip t => t | LxErr _ _ _ _ => mkTok ty w 0 0 0 0 end) = ty) by (subst l; destruct ty; reflexivity).
      rewrite <- Hs. subst l. unfold mk_lexeme in *. destruct ty; exact Hlm.
    + injection H as Hx Hl. cbn [concat map] in Hb. subst x. rewrite mk_lexeme_text in Hb. subst before. rewrite <- app_assoc in Hs. apply app_inv_head in Hs.
      eapply (IH rest); [apply app_shorter; apply Hlm|exact Hl|exact Hs|reflexivity].
  - rewrite He in H. destruct l1 as [|x l1].
    + injection H as Hl Hl2. subst before. cbn [app map concat lx_text] in Hs; cbn [map concat lx_text]. rewrite <- Hs. subst l. split; [exact Hno|].
      destruct Hdead as [->|Hd]; [left; rewrite lexf_nil in Hl2; symmetry; exact Hl2|right; exact Hd].
    + injection H as Hx Hl. cbn [concat map] in Hb. subst x. cbn [lx_text] in Hb. subst before. rewrite <- app_assoc in Hs. apply app_inv_head in Hs.
      eapply (IH rest); [apply app_shorter; exact Hbad|exact Hl|exact Hs|reflexivity].
Qed.

Theorem C04_longest_match : forall (q : pystr) (l1 l2 : list lexeme) (t : token) (l : lexeme),
  lexemes q = l1 ++ l :: l2 -> l = LxTok t \/ l = LxSkip t ->
  let rest := concat (map lx_text (l :: l2)) in
  q = concat (map lx_text l1) ++ rest /\
  (exists after, rest = t_text t ++ after) /\ preferred (t_text t) (t_type t) /\
  forall w after, rest = w ++ after -> (List.length (t_text t) < List.length w)%nat -> forall ty, ~ spelled ty w.
Proof.
  intros q l1 l2 t l H Hl rest.
  assert (Hq : q = concat (map lx_text l1) ++ rest).
  { rewrite <- (proj1 (C03_tiles q)) at 1. rewrite H, map_app, concat_app. reflexivity. }
  split; [exact Hq|]. rewrite lexemes_lexf in H. pose proof (lexeme_longest q _ l1 l l2 0 1 0 H Hq eq_refl) as HL.
  assert (Hlm : longest_match rest (t_type t) (t_text t)) by (destruct Hl as [->| ->]; exact HL).
  destruct Hlm as (_ & Hp & Hf & Hmax). split; [exact Hp|]. split; [apply first_rule_preferred; exact Hf|].
  intros w after Hw Hlt ty Hs. apply (Hmax w after Hw Hlt). apply matched_spelled. eauto.
Qed.
(** A lexical error: no prefix of the rest can be read as a token, and (before the
    end) not even a longer text can be: the skipped part is hopeless. *)
Theorem C04_error : forall (q : pystr) (l1 l2 : list lexeme) s ln c txt,
  lexemes q = l1 ++ LxErr s ln c txt :: l2 ->
  (forall w after ty, concat (map lx_text (LxErr s ln c txt :: l2)) = w ++ after -> w <> [] -> ~ spelled ty w) /\
  (l2 = [] \/ forall w ty, ~ spelled ty (txt ++ w)).
Proof.
  intros q l1 l2 s ln c txt H.
  assert (Hq : q = concat (map lx_text l1) ++ concat (map lx_text (LxErr s ln c txt :: l2))).
  { rewrite <- (proj1 (C03_tiles q)) at 1. rewrite H, map_app, concat_app. reflexivity. }
  rewrite lexemes_lexf in H. pose proof (lexeme_longest q _ l1 _ l2 0 1 0 H Hq eq_refl) as HL. cbn beta iota in HL.
  destruct HL as [HL Hd]. split.
  - intros w after ty Hw Hne Hs. apply (HL w after Hw Hne). apply matched_spelled. eauto.
  - destruct Hd as [Hd|Hd]; [left; exact Hd|right]. intros w ty Hs. apply (Hd w). apply matched_spelled. eauto.
Qed.

(** No token is ever a QUOTED_STRING, and words with a special meaning are never
    plain identifiers. *)
Theorem C04_types : forall (q : pystr) (t : token), In t (lx_tokens (lexemes q)) ->
  spelled (t_type t) (t_text t) /\ t_type t <> QUOTED_STRING /\ t_type t <> Space /\ t_type t <> EOF /\
  (t_text t = u "within" <-> t_type t = WITHIN) /\
  (t_type t = IDENTIFIER -> t_text t <> u "within" /\ (forall sc, ~ scope_word (t_text t) sc) /\
     exists c, In c (t_text t) /\ flag_meaning c = None) /\
  (t_type t = SIMPLE_WITHIN_SCOPE <-> exists sc, scope_word (t_text t) sc) /\
  (t_type t = REGEXP <-> is_literal (t_text t)).
Proof.
  intros q t Hin. destruct (token_at q t Hin) as (b & a & _ & _ & _ & Hne & _ & Hsp & _ & _ & Hf & _).
  apply first_rule_preferred in Hf. destruct Hf as [Hs Hpref].
  assert (Hno : forall ty' l2 l1, preference = l1 ++ t_type t :: l2 -> In ty' l1 -> ~ spelled ty' (t_text t)) by (intros; eapply Hpref; eauto).
  assert (Hsplit : t_type t <> EOF -> exists l1 l2, preference = l1 ++ t_type t :: l2).
  { intros He. apply in_split. destruct (t_type t); cbn; tauto. }
  assert (Heof : t_type t <> EOF) by (intros He; rewrite He in Hs; exact Hs).
  assert (Hquo : t_type t <> QUOTED_STRING).
  { intros He. rewrite He in *. apply (Hno REGEXP [Space] (removelast (removelast preference))); [reflexivity|cbn; tauto|exact Hs]. }
  assert (Hid : forall x, t_type t = x -> In x [IDENTIFIER; INTEGER; REGEXP; QUOTED_STRING; Space] ->
            forall y, In y [WITHIN; SIMPLE_WITHIN_SCOPE; REGEXP_FLAGS] -> ~ spelled y (t_text t)).
  { intros x Hx Hinx y Hy. destruct (Hsplit Heof) as (l1 & l2 & Hl). apply (Hno y l2 l1 Hl). rewrite Hx in Hl.
    cbn [In] in Hinx, Hy.
    assert (Hlen : nth_error preference (List.length l1) = Some x) by (rewrite Hl, nth_error_app2, Nat.sub_diag; [reflexivity|lia]).
    assert (Hl1 : l1 = firstn (List.length l1) preference) by (rewrite Hl, firstn_app, Nat.sub_diag, firstn_all; cbn; rewrite app_nil_r; reflexivity).
    assert (Hk : (20 <= List.length l1)%nat).
    { destruct (Nat.le_gt_cases 20 (List.length l1)) as [|Hlt]; [assumption|exfalso].
      do 20 (destruct l1 as [|? l1]; [cbn in Hlen; injection Hlen as <-; intuition discriminate|]). cbn in Hlt. lia. }
    rewrite Hl1. replace (List.length l1) with (20 + (List.length l1 - 20))%nat by lia.
    change preference with (firstn 20 preference ++ skipn 20 preference). rewrite firstn_app.
    apply in_or_app. left. rewrite firstn_all2 by (cbn; lia). cbn. intuition (subst; tauto). }
  split; [exact Hs|]. split; [exact Hquo|]. split; [exact Hsp|]. split; [exact Heof|].
  assert (Hlet : forall sc, scope_word (t_text t) sc -> t_type t = SIMPLE_WITHIN_SCOPE \/
            In (t_type t) [IDENTIFIER; INTEGER; REGEXP; QUOTED_STRING; Space; REGEXP_FLAGS; WITHIN]).
  { intros sc Hsc. destruct (t_type t) eqn:Hty; cbn; try tauto; exfalso; cbn [spelled] in Hs; rewrite Hs in Hsc; inversion Hsc. }
  split.
  { split; [|intros Hty; rewrite Hty in Hs; exact Hs]. intros Hw. destruct (t_type t) eqn:Hty; try reflexivity; exfalso.
    all: try (cbn [spelled] in Hs; rewrite Hw in Hs; discriminate Hs).
    all: try (apply (Hid _ eq_refl ltac:(cbn; tauto) WITHIN ltac:(cbn; tauto)); exact Hw).
    - destruct Hs as (sc & Hs). rewrite Hw in Hs. inversion Hs.
    - destruct Hs as [_ Hs]. rewrite Hw in Hs. inversion Hs as [|? ? Hc _]. apply Hc. reflexivity.
    }
  split.
  { intros Hty. pose proof (Hid _ Hty ltac:(cbn; tauto)) as Hk. split; [apply (Hk WITHIN); cbn; tauto|].
    split; [intros sc Hsc; apply (Hk SIMPLE_WITHIN_SCOPE ltac:(cbn; tauto)); exists sc; exact Hsc|].
    pose proof (Hk REGEXP_FLAGS ltac:(cbn; tauto)) as Hfl. cbn [spelled] in Hfl.
    assert (Hd : Forall (fun c => flag_meaning c <> None) (t_text t) \/ exists c, In c (t_text t) /\ flag_meaning c = None).
    { clear. induction (t_text t) as [|c w [IH|(x & Hx & Hn)]]; [left; constructor| |right; exists x; cbn; auto].
      destruct (flag_meaning c) eqn:Hc; [left; constructor; [congruence|exact IH]|right; exists c; cbn; auto]. }
    destruct Hd as [Hd|Hd]; [exfalso; apply Hfl; auto|exact Hd]. }
  split.
  { split; [intros Hty; rewrite Hty in Hs; exact Hs|]. intros (sc & Hsc). destruct (Hlet sc Hsc) as [H|H]; [exact H|exfalso].
    destruct (t_type t) eqn:Hty; cbn in H; try (intuition discriminate).
    all: try (apply (Hid _ eq_refl ltac:(cbn; tauto) SIMPLE_WITHIN_SCOPE ltac:(cbn; tauto)); exists sc; exact Hsc).
    - cbn [spelled] in Hs. rewrite Hs in Hsc. inversion Hsc.
    - apply (Hpref (firstn 19 preference) (skipn 20 preference) SIMPLE_WITHIN_SCOPE eq_refl); [cbn; tauto|]. exists sc. exact Hsc. }
  split; [intros Hty; rewrite Hty in Hs; exact Hs|].
  intros Hl. destruct (t_type t) eqn:Hty; try reflexivity; exfalso.
  all: destruct Hl as (qq & es & Hq & _ & Hw); unfold lit_text in Hw; cbn [spelled] in Hs.
  all: try (rewrite Hw in Hs; destruct Hq; subst qq; cbn in Hs; congruence).
  all: try contradiction.
  all: try (apply Hquo; reflexivity).
  all: try (apply Hsp; reflexivity).
  - destruct Hs as (sc & Hs). rewrite Hw in Hs. destruct Hq; subst qq; inversion Hs.
  - destruct Hs as [_ Hs]. rewrite Hw in Hs. inversion Hs as [|? ? Hc _]. apply Hc. destruct Hq; subst qq; reflexivity.
  - destruct Hs as (c & w' & Hw' & Hc & _). rewrite Hw in Hw'. injection Hw' as <- _. unfold letter in Hc. destruct Hq; subst; lia.
  - destruct Hs as [_ Hs]. rewrite Hw in Hs. inversion Hs as [|? ? Hc _]. unfold digit in Hc. destruct Hq; subst; lia.
Qed.
Example C04_witness : map (fun t => t_type t) (lx_tokens (lexemes (u "within s ic withins 'x'"))) =
  [WITHIN; SIMPLE_WITHIN_SCOPE; REGEXP_FLAGS; IDENTIFIER; REGEXP].
Proof. vm_compute. reflexivity. Qed.
Print Assumptions C03_tiles. Print Assumptions C03_token_text. Print Assumptions C03_token_order.
Print Assumptions C04_longest_match. Print Assumptions C04_error. Print Assumptions C04_types.
