(** The lexer rules of FCSLexer.g4 describe exactly the specified token classes. *)
From Coq Require Import String.
From Verif Require Import Base Regex LexRules Lexer Ast LitSpec ValueSpec SpellSpec RegexFacts LexSpec LexFacts LexRuleFacts LexThms TokenSpec.

Lemma white_space_ranges c : in_ranges ws_chars c = true <-> white_space c.
Proof. unfold in_ranges, white_space, ws_chars. cbn [existsb fst snd]. lia. Qed.

Lemma word_spec s w : lang (word (u s)) w <-> w = u s.
Proof. apply lang_word. Qed.

Lemma rule_spelled ty r w : In (ty, r) lex_rules -> (lang r w <-> spelled ty w).
Proof.
  cbn [lex_rules In]. intros H.
  repeat (destruct H as [H|H]; [injection H as <- <-; cbn [spelled];
    first [apply lang_ch|apply (lang_word (u "!="))|apply (lang_word (u "within"))|apply lang_QUOTED|idtac]|]); [..|destruct H].
  - (* scope words *)
    change (lang (bars (map word scope_words)) w <-> exists sc, scope_word w sc). rewrite lang_bars. split.
    + intros (r & Hr & Hl). apply in_map_iff in Hr. destruct Hr as (s & <- & Hs). apply lang_word in Hl. subst s.
      cbn [scope_words map In] in Hs. repeat (destruct Hs as [<-|Hs]; [eexists; constructor|]). destruct Hs.
    + intros (sc & Hs). exists (word w). split; [|apply lang_word; reflexivity]. apply in_map. destruct Hs; cbn; tauto.
  - (* flags *)
    rewrite lang_plus_set. split; intros [Hne HF]; (split; [exact Hne|]); eapply Forall_impl; try exact HF; cbn beta; intros c.
    + rewrite in_flag_chars. unfold is_flag_char. cbn. intros H.
      repeat (destruct H as [<-|H]; [discriminate|]). destruct H.
    + unfold flag_meaning, in_ranges, flag_chars. cbn [existsb fst snd]. intros Hc.
      destruct (N.eqb_spec c 105) as [Ec|]; [rewrite Ec; reflexivity|]. destruct (N.eqb_spec c 99) as [Ec|]; [rewrite Ec; reflexivity|].
      destruct (N.eqb_spec c 73) as [Ec|]; [rewrite Ec; reflexivity|]. destruct (N.eqb_spec c 67) as [Ec|]; [rewrite Ec; reflexivity|].
      destruct (N.eqb_spec c 108) as [Ec|]; [rewrite Ec; reflexivity|]. destruct (N.eqb_spec c 100) as [Ec|]; [rewrite Ec; reflexivity|].
      exfalso. apply Hc. reflexivity.
  - (* identifier *)
    assert (Hl : forall c, in_ranges id_first c = true <-> letter c).
    { intros c. unfold in_ranges, id_first, letter. cbn [existsb fst snd]. lia. }
    assert (Hd : forall c, in_ranges id_last c = true <-> letter c \/ digit c).
    { intros c. unfold in_ranges, id_last, letter, digit. cbn [existsb fst snd]. lia. }
    assert (Hc : forall c, in_ranges id_char c = true <-> letter c \/ digit c \/ c = 45%N).
    { intros c. unfold in_ranges, id_char, letter, digit. cbn [existsb fst snd]. lia. }
    rewrite lang_cat. unfold opt. split.
    + intros (x & y & -> & Hx & Hy). apply lang_set in Hx. destruct Hx as (c & -> & Hx). exists c, y.
      split; [reflexivity|]. apply Hl in Hx. split; [exact Hx|].
      rewrite lang_bar, lang_eps, lang_cat in Hy. destruct Hy as [Hy | ->]; [|split; [constructor|]].
      * destruct Hy as (y1 & y2 & -> & Hy1 & Hy2). apply lang_rep_set in Hy1. apply lang_set in Hy2. destruct Hy2 as (d & -> & Hy2).
        apply Hd in Hy2. split.
        { apply Forall_app. split; [|constructor; [tauto|constructor]]. eapply Forall_impl; [|exact Hy1]. intros a. apply Hc. }
        intros w0 Heq. change (u "-") with [45%N] in Heq. cbn [app] in Heq. change (c :: y1 ++ [d]) with ((c :: y1) ++ [d]) in Heq. apply app_inj_tail in Heq. destruct Heq as [_ ->].
        destruct Hy2 as [Hy2|Hy2]; unfold letter, digit in Hy2; lia.
      * intros w0 Heq. change (u "-") with [45%N] in Heq. change ([c] ++ []) with ([] ++ [c]) in Heq. apply app_inj_tail in Heq. destruct Heq as [_ ->]. unfold letter in Hx. lia.
    + intros (c & w' & -> & Hx & HF & Hend). exists [c], w'. split; [reflexivity|].
      split; [apply lang_set; exists c; split; [reflexivity|apply Hl; exact Hx]|].
      rewrite lang_bar, lang_eps, lang_cat. destruct w' as [|d w' _] using rev_ind; [right; reflexivity|]. left.
      exists w', [d]. split; [reflexivity|]. apply Forall_app in HF. destruct HF as [HF Hlast]. inversion Hlast as [|? ? Hd' _]; subst.
      split; [apply lang_rep_set; eapply Forall_impl; [|exact HF]; intros a; apply Hc|].
      apply lang_set. exists d. split; [reflexivity|]. apply Hd. destruct Hd' as [?|[?|H45]]; [tauto|tauto|].
      exfalso. apply (Hend (c :: w')). cbn. rewrite H45. reflexivity.
  - (* integer *)
    rewrite lang_plus_set. split; intros [Hne HF]; (split; [exact Hne|]); eapply Forall_impl; try exact HF; cbn beta; intros c;
      unfold digit, in_ranges; cbn [existsb fst snd]; lia.
  - (* white space *)
    rewrite lang_set. split; intros (c & -> & Hc); exists c; (split; [reflexivity|]); apply white_space_ranges; exact Hc.
Qed.

Lemma preference_rules : map fst lex_rules = preference.
Proof. reflexivity. Qed.
Lemma matched_spelled w : matched w <-> exists ty, spelled ty w.
Proof.
  split.
  - intros (ty & r & Hin & Hl). exists ty. apply (rule_spelled ty r w Hin). exact Hl.
  - intros (ty & Hs). assert (Hin : ty = EOF \/ In ty (map fst lex_rules)) by (destruct ty; cbn; tauto).
    destruct Hin as [->|Hin]; [destruct Hs|]. apply in_map_iff in Hin. destruct Hin as ([ty' r] & Heq & Hin). cbn in Heq. subst ty'.
    exists ty, r. split; [exact Hin|]. apply (rule_spelled ty r w Hin). exact Hs.
Qed.
Lemma nodup_split {A} (x : A) a1 : forall a2 b1 b2, NoDup (a1 ++ x :: b1) -> a1 ++ x :: b1 = a2 ++ x :: b2 -> a1 = a2.
Proof.
  induction a1 as [|y a1 IH]; intros [|z a2] b1 b2 Hn Heq; cbn in *; [reflexivity| | |].
  - injection Heq as <- Heq. inversion Hn as [|? ? Hx _]; subst. exfalso. apply Hx. apply in_or_app. right. left. reflexivity.
  - injection Heq as -> Heq. inversion Hn as [|? ? Hx _]; subst. exfalso. apply Hx. apply in_or_app. right. left. reflexivity.
  - injection Heq as <- Heq. inversion Hn; subst. f_equal. eapply IH; eassumption.
Qed.
Lemma first_rule_preferred w ty : first_rule w ty -> preferred w ty.
Proof.
  intros (l1 & r & l2 & Hl & Hr & Hno). split.
  - eapply rule_spelled; [|exact Hr]. rewrite Hl. apply in_or_app. right. left. reflexivity.
  - intros p1 p2 ty' Hp Hin Hs.
    assert (Heq : p1 = map fst l1).
    { rewrite <- preference_rules, Hl, map_app in Hp. cbn [map fst] in Hp.
      assert (Hnd : NoDup preference) by (repeat constructor; cbn; intuition discriminate).
      rewrite <- preference_rules, Hl, map_app in Hnd. cbn [map fst] in Hnd. symmetry. eapply nodup_split; eassumption. }
    subst p1. apply in_map_iff in Hin. destruct Hin as ([ty2 r2] & Heq & Hin). cbn in Heq. subst ty2.
    apply (Hno (ty', r2) Hin). cbn. eapply rule_spelled; [|exact Hs]. rewrite Hl. apply in_or_app. left. exact Hin.
Qed.
