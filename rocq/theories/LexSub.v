(** Tokenising a part of a query that begins and ends with a token. *)
From Verif Require Import Base Regex LexRules Lexer RegexFacts LexSpec LexFacts LexThms LexWs.

Lemma longest_match_shorten w rest rest' x ty : rest = rest' ++ x ->
  longest_match (w ++ rest) ty w -> longest_match (w ++ rest') ty w.
Proof.
  intros -> (Hne & _ & Hf & Hmax). split; [exact Hne|]. split; [eexists; reflexivity|]. split; [exact Hf|].
  intros w' r Heq Hlen. apply (Hmax w' (r ++ x)); [|exact Hlen]. rewrite app_assoc, Heq, <- app_assoc. reflexivity.
Qed.

Lemma lexf_concat pos line col s : concat (map lx_text (lexf pos line col s)) = s.
Proof. apply (tiles_concat _ pos). apply lex_loop_tiles. auto. Qed.

Lemma lexf_suffix : forall l1 l2 s pos line col, lexf pos line col s = l1 ++ l2 ->
  exists pos' line' col', lexf pos' line' col' (concat (map lx_text l2)) = l2.
Proof.
  induction l1 as [|l l1 IH]; intros l2 s pos line col H.
  - exists pos, line, col. cbn [app] in H. subst l2. rewrite lexf_concat. reflexivity.
  - destruct (list_eq_dec N.eq_dec s []) as [->|Hs]; [discriminate|].
    destruct (lexf_cases pos line col s Hs) as [(ty & w & rest & Hsw & Hl & Heq)|(bad & rest & Hsw & Hbad & Hno & _ & Heq)];
      rewrite Heq in H; cbn [app] in H; injection H as _ H; eapply IH; exact H.
Qed.

Lemma lexf_prefix : forall l1 l2 s pos line col, lexf pos line col s = l1 ++ l2 -> has_error l1 = false ->
  lexf pos line col (concat (map lx_text l1)) = l1.
Proof.
  induction l1 as [|l l1 IH]; intros l2 s pos line col H He; [reflexivity|].
  destruct (list_eq_dec N.eq_dec s []) as [->|Hs]; [discriminate|].
  destruct (lexf_cases pos line col s Hs) as [(ty & w & rest & Hsw & Hl & Heq)|(bad & rest & Hsw & Hbad & Hno & _ & Heq)];
    rewrite Heq in H; cbn [app] in H; injection H as Hlx H.
  - cbv zeta in H. subst l. rewrite has_error_mk in He. cbn [map concat]. rewrite mk_lexeme_text.
    assert (Hrest : rest = concat (map lx_text l1) ++ concat (map lx_text l2)).
    { rewrite <- (lexf_concat (pos + zlen w) (fst (advance_pos line col w)) (snd (advance_pos line col w)) rest).
      rewrite H, map_app, concat_app. reflexivity. }
    rewrite (lexf_token ty w (concat (map lx_text l1)) pos line col).
    + cbv zeta. f_equal. eapply IH; eauto.
    + subst s. eapply longest_match_shorten; eauto.
  - subst l. discriminate He.
Qed.

Lemma lexf_middle l1 l2 l3 s pos line col : lexf pos line col s = l1 ++ l2 ++ l3 -> has_error l2 = false ->
  lx_sigs (lexemes (concat (map lx_text l2))) = lx_sigs l2 /\ has_error (lexemes (concat (map lx_text l2))) = false.
Proof.
  intros H He. destruct (lexf_suffix l1 (l2 ++ l3) s pos line col H) as (p & ln & c & H').
  apply lexf_prefix in H'; [|exact He]. destruct (lexf_positions (concat (map lx_text l2)) 0 1 0 p ln c) as (A & B & _).
  rewrite lexemes_lexf, A, B, H'. auto.
Qed.

(** Splitting the lexemes at tokens. *)
Lemma lx_tokens_app l1 l2 : lx_tokens (l1 ++ l2) = lx_tokens l1 ++ lx_tokens l2.
Proof. unfold lx_tokens. apply flat_map_app. Qed.
Lemma split_first ls : forall pre a r, lx_tokens ls = pre ++ a :: r ->
  exists l1 l2, ls = l1 ++ LxTok a :: l2 /\ lx_tokens l1 = pre /\ lx_tokens l2 = r.
Proof.
  induction ls as [|l ls IH]; intros pre a r H; [destruct pre; discriminate|].
  destruct l as [t|t|s ln c x]; cbn in H.
  - destruct pre as [|p pre]; cbn in H; injection H as -> H.
    + exists [], ls. auto.
    + destruct (IH pre a r H) as (l1 & l2 & -> & H1 & H2). exists (LxTok p :: l1), l2. cbn. rewrite <- H1. auto.
  - destruct (IH pre a r H) as (l1 & l2 & -> & H1 & H2). exists (LxSkip t :: l1), l2. auto.
  - destruct (IH pre a r H) as (l1 & l2 & -> & H1 & H2). exists (LxErr s ln c x :: l1), l2. auto.
Qed.

Lemma has_error_app l1 l2 : has_error (l1 ++ l2) = (has_error l1 || has_error l2)%bool.
Proof. unfold has_error. apply existsb_app. Qed.

(** The text from the first to the last of successive tokens. *)
Lemma token_span q pre a r post : lex_errors q = [] -> lx_tokens (lexemes q) = pre ++ (a :: r) ++ post ->
  let b := last (a :: r) a in
  let w := slice q (t_start a) (t_stop b + 1) in
  (0 <= t_start a < t_stop b + 1)%Z /\ (t_stop b + 1 <= zlen q)%Z /\
  lx_sigs (lexemes w) = map sig (a :: r) /\ lex_errors w = [] /\
  exists x y, q = x ++ w ++ y /\ zlen x = t_start a /\ token_boundary q (List.length x) /\ token_boundary q (List.length (x ++ w)).
Proof.
  intros Herr H b w.
  assert (Hn : has_error (lexemes q) = false) by (apply has_error_lx_errors; exact Herr).
  destruct (exists_last (l := a :: r) ltac:(discriminate)) as (r0 & b' & Hb).
  assert (Hbb : b = b') by (unfold b; rewrite Hb; apply last_last). clearbody b. subst b'.
  assert (H1 : exists l1 l2, lexemes q = l1 ++ LxTok a :: l2 /\ lx_tokens l1 = pre /\ lx_tokens l2 = r ++ post).
  { apply split_first. exact H. }
  destruct H1 as (l1 & l2 & Hl & Hp & Hr).
  assert (H2 : lx_tokens (LxTok a :: l2) = r0 ++ b :: post).
  { cbn. change (flat_map _ l2) with (lx_tokens l2). rewrite Hr. change (a :: r ++ post) with ((a :: r) ++ post). rewrite Hb, <- app_assoc. reflexivity. }
  destruct (split_first _ _ _ _ H2) as (m & l3 & Hm & Hm1 & Hm2).
  rewrite Hm in Hl.
  assert (Hq : lexemes q = l1 ++ (m ++ [LxTok b]) ++ l3) by (rewrite Hl, <- app_assoc; reflexivity).
  set (X := concat (map lx_text l1)). set (W := concat (map lx_text (m ++ [LxTok b]))). set (Y := concat (map lx_text l3)).
  assert (HqX : q = X ++ W ++ Y).
  { unfold X, W, Y. rewrite <- !concat_app, <- !map_app, <- Hq. symmetry. apply lexf_concat. }
  assert (Ha : t_start a = zlen X).
  { assert (Hla : lexemes q = l1 ++ LxTok a :: l2) by (rewrite Hm; exact Hl).
    destruct (lexemes_at _ _ _ _ Hla) as (_ & Hst & _). exact Hst. }
  assert (Hbs : t_stop b = (zlen X + zlen W - 1)%Z).
  { assert (Hlb : lexemes q = (l1 ++ m) ++ LxTok b :: l3) by (rewrite Hl, <- app_assoc; reflexivity).
    destruct (lexemes_at _ _ _ _ Hlb) as (_ & Hst & _ & Hsp & _). rewrite Hsp. unfold W, X.
    rewrite !map_app, !concat_app, !zlen_app. cbn [map concat lx_text]. rewrite zlen_app. change (zlen []) with 0%Z. lia. }
  assert (HW : w = W).
  { unfold w. rewrite Ha, Hbs. replace (zlen X + zlen W - 1 + 1)%Z with (zlen X + zlen W)%Z by lia. rewrite HqX. apply slice_mid. }
  assert (HWne : W <> []).
  { unfold W. rewrite map_app, concat_app. cbn.
    assert (Hlb : lexemes q = (l1 ++ m) ++ LxTok b :: l3) by (rewrite Hl, <- app_assoc; reflexivity).
    destruct (lexemes_at _ _ _ _ Hlb) as (_ & _ & Hne & _). cbn in Hne. intros Hx. apply app_eq_nil in Hx. destruct Hx as [_ Hx].
    apply app_eq_nil in Hx. destruct Hx. contradiction. }
  pose proof (zlen_pos _ HWne). pose proof (zlen_nonneg X). pose proof (zlen_nonneg Y).
  rewrite HW. rewrite Ha, Hbs. split; [lia|]. split.
  { rewrite HqX, !zlen_app. lia. }
  rewrite lexemes_lexf in Hq.
  destruct (lexf_middle _ _ _ _ _ _ _ Hq) as [A B].
  { rewrite <- lexemes_lexf in Hq. rewrite Hq, !has_error_app in Hn. apply orb_false_iff in Hn. destruct Hn as [_ Hn].
    apply orb_false_iff in Hn. destruct Hn as [Hn _]. rewrite has_error_app. exact Hn. }
  split; [|split].
  - unfold W. rewrite A. unfold lx_sigs. rewrite lx_tokens_app, Hm1, Hb. reflexivity.
  - apply has_error_lx_errors. exact B.
  - exists X, Y. split; [exact HqX|]. split; [lia|]. rewrite <- lexemes_lexf in Hq. split.
    + exists l1, ((m ++ [LxTok b]) ++ l3). split; [exact Hq|reflexivity].
    + exists (l1 ++ m ++ [LxTok b]), l3. split; [rewrite Hq, !app_assoc; reflexivity|].
      unfold X, W. rewrite map_app, concat_app. reflexivity.
Qed.
