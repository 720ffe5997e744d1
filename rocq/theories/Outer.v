(** The structure of a query outside brackets over a given reading of the levels between square brackets. *)
From Coq Require Import String.
From Verif Require Import Base Regex LexRules Lexer Grammar Antlr Ast Builder Parser LexSpec LitSpec
  GramSpec GramFacts ValueSpec ValueFacts SpellSpec BuilderFacts BuilderRules ParseSpec ParseFacts LevelFacts SelFacts PrecFacts
  TreeSpec TreeFacts SitFacts LevelSpec LevelThm QuerySpec PropsParse PropsTree ReadSpec ReadFacts ReadQuery.
Local Open Scope Z_scope.

Section Outer.
  Variables (E : penv) (C : pcfg) (L : list token -> qnode -> Prop).
  (** Outside: an item is a literal, empty brackets, brackets or a parenthesised group, with its repetition. *)
  Inductive o_item : list token -> qnode -> Prop :=
  | ori_literal tr tq v fl mn mx : sp_regex E C tr v fl -> quantified tq mn mx ->
      o_item (tr ++ tq)
        (QN (PSegment mn mx) (span (tr ++ tq))
           [QN (PExpr None (default_identifier C) (default_operator C) v fl) (span tr) []])
  | ori_wildcard l r tq mn mx : is_tok L_SQUARE_BRACKET l -> is_tok R_SQUARE_BRACKET r -> quantified tq mn mx ->
      o_item (l :: r :: tq) (QN (PSegment mn mx) (span (l :: r :: tq)) [QN PWildcard (span [l; r]) []])
  | ori_segment l te r tq n mn mx : is_tok L_SQUARE_BRACKET l -> L te n -> is_tok R_SQUARE_BRACKET r ->
      quantified tq mn mx -> o_item (l :: te ++ r :: tq) (QN (PSegment mn mx) (span (l :: te ++ r :: tq)) [n])
  | ori_group l tc r tq n mn mx : is_tok L_PAREN l -> o_content tc n -> is_tok R_PAREN r ->
      quantified tq mn mx -> o_item (l :: tc ++ r :: tq) (QN (PQGroup mn mx) (span (l :: tc ++ r :: tq)) [n])
  with o_seq : list token -> list qnode -> Prop :=
  | orq_one ts n : o_item ts n -> o_seq ts [n]
  | orq_more ts n ts' ns : o_item ts n -> o_seq ts' ns -> o_seq (ts ++ ts') (n :: ns)
  (** An operand of [|]: a single segment as it is, anything else as the sequence of its items. *)
  with o_operand : list token -> qnode -> Prop :=
  | oro_segment ts n : o_item ts n -> q_class n = CQuerySegment -> o_operand ts n
  | oro_seq ts ns : o_seq ts ns -> (forall n, ns = [n] -> q_class n <> CQuerySegment) -> o_operand ts (QN PSequence (span ts) ns)
  with o_operands : list token -> list qnode -> Prop :=
  | oros_one ts n : o_operand ts n -> o_operands ts [n]
  | oros_more ts n k ts' ns : o_operand ts n -> is_tok OR k -> o_operands ts' ns -> o_operands (ts ++ k :: ts') (n :: ns)
  (** Between parentheses. *)
  with o_content : list token -> qnode -> Prop :=
  | orc_seq ts ns : o_seq ts ns -> o_content ts (QN PSequence (span ts) ns)
  | orc_or ts ns : o_operands ts ns -> (2 <= List.length ns)%nat -> o_content ts (QN PDisjunction (span ts) ns).

  (** A whole query without its within part: a single item stands for itself. *)
  Inductive o_main : list token -> qnode -> Prop :=
  | orm_item ts n : o_item ts n -> o_main ts n
  | orm_seq ts ns : o_seq ts ns -> (2 <= List.length ns)%nat -> o_main ts (QN PSequence (span ts) ns)
  | orm_or ts ns : o_operands ts ns -> (2 <= List.length ns)%nat -> o_main ts (QN PDisjunction (span ts) ns).
  Inductive o_query : list token -> qnode -> Prop :=
  | ory_plain ts n e : o_main ts n -> is_tok EOF e -> o_query (ts ++ [e]) n
  | ory_within ts n w k sc e : o_main ts n -> is_tok WITHIN w -> is_tok SIMPLE_WITHIN_SCOPE k ->
      scope_word (t_text k) sc -> is_tok EOF e ->
      o_query (ts ++ [w; k; e]) (QN PWithWithin (span (ts ++ [w; k])) [n; QN (PSimpleWithin sc) (span [k]) []]).
End Outer.
Scheme o_item_mind := Minimality for o_item Sort Prop
  with o_seq_mind := Minimality for o_seq Sort Prop
  with o_operand_mind := Minimality for o_operand Sort Prop
  with o_operands_mind := Minimality for o_operands Sort Prop
  with o_content_mind := Minimality for o_content Sort Prop.
Combined Scheme o_item_mutind from o_item_mind, o_seq_mind, o_operand_mind, o_operands_mind, o_content_mind.

Section OuterFacts.
  Variables (E : penv) (C : pcfg) (L : list token -> qnode -> Prop).
  Notation sp_expr := (sp_expr E C). Notation sp_regex := (sp_regex E C). Notation sp_item := (sp_item E C). Notation sp_seq := (sp_seq E C).
  Notation o_item := (o_item E C L). Notation o_seq := (o_seq E C L). Notation o_operand := (o_operand E C L).
  Notation o_operands := (o_operands E C L). Notation o_content := (o_content E C L).
  Notation o_main := (o_main E C L). Notation o_query := (o_query E C L).
  Hypothesis Lsp : forall ts n, L ts n -> sp_expr ts n.
  Hypothesis Lfun : forall ts n n', L ts n -> L ts n' -> n = n'.
  Lemma L_bal ts n : L ts n -> balanced (types ts).
  Proof. intros H. eapply (proj1 (expr_balanced E C)). apply Lsp. exact H. Qed.
  Lemma o_item_sound :
    (forall ts n, o_item ts n -> sp_item ts n) /\ (forall ts ns, o_seq ts ns -> sp_seq ts ns) /\
    (forall ts n, o_operand ts n -> sp_operand E C ts n) /\ (forall ts ns, o_operands ts ns -> sp_alts E C ts ns) /\
    (forall ts n, o_content ts n -> sp_content E C ts n).
  Proof.
    apply (o_item_mutind E C L sp_item sp_seq (sp_operand E C) (sp_alts E C) (sp_content E C)); intros.
    - apply si_literal; assumption.
    - apply si_wildcard; assumption.
    - apply si_segment; auto.
    - apply si_group; assumption.
    - apply sq_one; assumption.
    - apply sq_more; assumption.
    - apply sop_item; assumption.
    - apply sop_seq; assumption.
    - apply sal_one; assumption.
    - apply sal_more; assumption.
    - apply sc_seq; assumption.
    - apply sc_alts; assumption.
  Qed.
  Lemma o_main_sound ts n : o_main ts n -> sp_main E C ts n.
  Proof.
    intros H. inversion H; subst; [apply sm_item|apply sm_content, sc_seq|apply sm_content, sc_alts]; auto; apply o_item_sound; assumption.
  Qed.
  Lemma o_query_sound ts n : o_query ts n -> sp_query E C ts n.
  Proof. intros H. inversion H; subst; [apply sqy_plain|apply sqy_within]; auto using o_main_sound. Qed.

  Lemma o_operand_tidy ts n : o_operand ts n -> tidy ts.
  Proof. intros H. apply o_item_sound in H. eapply sp_operand_tidy. exact H. Qed.
  Lemma o_operands_parts ts ns : o_operands ts ns -> Forall2 o_operand (parts OR ts) ns.
  Proof.
    induction 1 as [ts n H|ts n k ts' ns H Hk _ IH].
    - rewrite parts_one by (auto; apply tidy_clean; eapply o_operand_tidy; exact H). constructor; auto.
    - rewrite parts_sep by (auto; apply tidy_clean; eapply o_operand_tidy; exact H). constructor; auto.
  Qed.
  Lemma o_seq_parts1 ts ns : o_seq ts ns -> parts OR ts = [ts].
  Proof. intros H. apply parts_one; auto. apply tidy_clean. apply o_item_sound in H. eapply seq_tidy. exact H. Qed.
  Lemma o_item_unique :
    (forall ts a, o_item ts a -> forall b, o_item ts b -> a = b) /\ (forall ts a, o_seq ts a -> forall b, o_seq ts b -> a = b) /\
    (forall ts a, o_operand ts a -> forall b, o_operand ts b -> a = b) /\ (forall ts a, o_operands ts a -> forall b, Forall2 o_operand (parts OR ts) b -> a = b) /\
    (forall ts a, o_content ts a -> forall b, o_content ts b -> a = b).
  Proof.
    apply (o_item_mutind E C L (fun ts a => forall b, o_item ts b -> a = b) (fun ts a => forall b, o_seq ts b -> a = b)
      (fun ts a => forall b, o_operand ts b -> a = b) (fun ts a => forall b, Forall2 o_operand (parts OR ts) b -> a = b) (fun ts a => forall b, o_content ts b -> a = b)).
    - intros tr tq v fl mn mx Hr Hq b Hb. inversion Hb as [tr' tq' v' fl' mn' mx' Hr' Hq' He|l r tq' mn' mx' Hl Hr' Hq' He|l te r tq' n mn' mx' Hl Hn Hr' Hq' He|l tc r tq' n mn' mx' Hl Hn Hr' Hq' He]; subst;
        try (exfalso; destruct (ReadQuery.regex_first E C _ _ _ Hr) as (k & x & -> & Hk); injection He as -> _; unfold is_tok in *; congruence).
      destruct (regex_split E C _ _ _ _ _ _ _ _ _ _ _ _ Hr' Hq' Hr Hq He) as [-> ->]. destruct (sp_regex_fun _ _ _ _ _ _ _ Hr Hr') as [-> ->]. destruct (quant_fun _ _ _ _ _ Hq Hq') as [-> ->]. reflexivity.
    - intros l r tq mn mx Hl Hr Hq b Hb. inversion Hb as [tr' tq' v' fl' mn' mx' Hr' Hq' He|l' r' tq' mn' mx' Hl' Hr' Hq' He|l' te r' tq' n mn' mx' Hl' Hn Hr' Hq' He|l' tc r' tq' n mn' mx' Hl' Hn Hr' Hq' He]; subst.
      + exfalso. destruct (ReadQuery.regex_first E C _ _ _ Hr') as (k & x & -> & Hk). injection He as -> _. unfold is_tok in *; congruence.
      + destruct (quant_fun _ _ _ _ _ Hq Hq') as [-> ->]. reflexivity.
      + exfalso. destruct (bracket_split l te r' tq' l [] r tq) as (_ & -> & _); [cbn [app]; f_equal; assumption|eapply L_bal; exact Hn|reflexivity|rewrite Hr'; reflexivity|rewrite Hr; reflexivity|]. apply Lsp in Hn. eapply (proj1 (expr_ne E C)); [exact Hn|reflexivity].
      + exfalso. unfold is_tok in *; congruence.
    - intros l te r tq n mn mx Hl Hn Hr Hq b Hb. inversion Hb as [tr' tq' v' fl' mn' mx' Hr' Hq' He|l' r' tq' mn' mx' Hl' Hr' Hq' He|l' te' r' tq' n' mn' mx' Hl' Hn' Hr' Hq' He|l' tc r' tq' n' mn' mx' Hl' Hn' Hr' Hq' He]; subst.
      + exfalso. destruct (ReadQuery.regex_first E C _ _ _ Hr') as (k & x & -> & Hk). injection He as -> _. unfold is_tok in *; congruence.
      + exfalso. destruct (bracket_split l [] r' tq' l te r tq) as (_ & <- & _); [cbn; f_equal; assumption|reflexivity|eapply L_bal; exact Hn|rewrite Hr'; reflexivity|rewrite Hr; reflexivity|]. apply Lsp in Hn. eapply (proj1 (expr_ne E C)); [exact Hn|reflexivity].
      + destruct (bracket_split l te' r' tq' l te r tq) as (_ & -> & -> & ->); [f_equal; assumption|eapply L_bal; exact Hn'|eapply L_bal; exact Hn|rewrite Hr'; reflexivity|rewrite Hr; reflexivity|].
        destruct (quant_fun _ _ _ _ _ Hq Hq') as [-> ->]. rewrite (Lfun _ _ _ Hn Hn'). reflexivity.
      + exfalso. unfold is_tok in *; congruence.
    - intros l te r tq n mn mx Hl Hn IH Hr Hq b Hb. inversion Hb as [tr' tq' v' fl' mn' mx' Hr' Hq' He|l' r' tq' mn' mx' Hl' Hr' Hq' He|l' te' r' tq' n' mn' mx' Hl' Hn' Hr' Hq' He|l' tc r' tq' n' mn' mx' Hl' Hn' Hr' Hq' He]; subst;
        try (exfalso; unfold is_tok in *; congruence).
      + exfalso. destruct (ReadQuery.regex_first E C _ _ _ Hr') as (k & x & -> & Hk). injection He as -> _. unfold is_tok in *; congruence.
      + destruct (bracket_split l tc r' tq' l te r tq) as (_ & -> & -> & ->); [f_equal; assumption|apply o_item_sound in Hn'; eapply content_bal; exact Hn'|apply o_item_sound in Hn; eapply content_bal; exact Hn|rewrite Hr'; reflexivity|rewrite Hr; reflexivity|].
        destruct (quant_fun _ _ _ _ _ Hq Hq') as [-> ->]. rewrite (IH _ Hn'). reflexivity.
    - intros ts n Hn IH b Hb. inversion Hb as [? m Hm|t m t' ms Hm Hms He]; subst; [rewrite (IH _ Hm); reflexivity|].
      exfalso. apply o_item_sound in Hn, Hms. apply o_item_sound in Hm. destruct (item_prefix E C t m (t ++ t') n t' [] Hm Hn (seq_starts E C _ _ Hms) I ltac:(rewrite app_nil_r; reflexivity)) as [_ ->].
      eapply (proj1 (proj2 (item_ne E C))); [exact Hms|reflexivity].
    - intros ts n ts' ns Hn IH Hs IH' b Hb. inversion Hb as [? m Hm|t m t' ms Hm Hms He]; subst.
      + exfalso. apply o_item_sound in Hn, Hs. apply o_item_sound in Hm. destruct (item_prefix E C ts n (ts ++ ts') m ts' [] Hn Hm (seq_starts E C _ _ Hs) I ltac:(rewrite app_nil_r; reflexivity)) as [_ ->].
        eapply (proj1 (proj2 (item_ne E C))); [exact Hs|reflexivity].
      + destruct (item_prefix E C t m ts n t' ts') as [-> ->]; [apply o_item_sound; exact Hm|apply o_item_sound; exact Hn|eapply seq_starts; apply o_item_sound; exact Hms|eapply seq_starts; apply o_item_sound; exact Hs|exact He|].
        rewrite (IH _ Hm), (IH' _ Hms). reflexivity.
    - intros ts n Hn IH Hc b Hb. inversion Hb as [? ? Hm|? ms Hm Hno]; subst; [auto|]. exfalso. inversion Hm as [? m Hm'|t m t' ms' Hm' Hms' He]; subst.
      + rewrite <- (IH _ Hm') in Hno. exact (Hno _ eq_refl Hc).
      + apply o_item_sound in Hn, Hms'. apply o_item_sound in Hm'. destruct (item_prefix E C t m (t ++ t') n t' [] Hm' Hn (seq_starts E C _ _ Hms') I ltac:(rewrite app_nil_r; reflexivity)) as [_ ->].
        eapply (proj1 (proj2 (item_ne E C))); [exact Hms'|reflexivity].
    - intros ts ns Hs IH Hno b Hb. inversion Hb as [? ? Hm Hc|? ms Hm Hno']; subst; [|rewrite (IH _ Hm); reflexivity].
      exfalso. rewrite (IH [b] ltac:(apply orq_one; exact Hm)) in Hno. exact (Hno _ eq_refl Hc).
    - intros ts n Hn IH b Hb. rewrite parts_one in Hb by (auto; apply tidy_clean; eapply o_operand_tidy; exact Hn). inversion Hb as [|? m ? ? H1 H2]; subst. inversion H2; subst. rewrite (IH _ H1). reflexivity.
    - intros ts n k ts' ns Hn IH Hk Hs IH' b Hb. rewrite parts_sep in Hb by (auto; apply tidy_clean; eapply o_operand_tidy; exact Hn). inversion Hb as [|? m ? ms H1 H2]; subst. rewrite (IH _ H1), (IH' _ H2). reflexivity.
    - intros ts ns Hs IH b Hb. inversion Hb as [? ms Hm|? ms Hm Hl]; subst; [rewrite (IH _ Hm); reflexivity|]. exfalso. apply o_operands_parts in Hm. rewrite (o_seq_parts1 _ _ Hs) in Hm. apply Forall2_length in Hm. cbn in Hm. lia.
    - intros ts ns Hs IH Hl b Hb. inversion Hb as [? ms Hm|? ms Hm Hl']; subst; [|rewrite (IH _ (o_operands_parts _ _ Hm)); reflexivity].
      exfalso. apply o_operands_parts in Hs. rewrite (o_seq_parts1 _ _ Hm) in Hs. apply Forall2_length in Hs. cbn in Hs. lia.
  Qed.
  Lemma o_seq_length_item ts n ns : o_item ts n -> o_seq ts ns -> ns = [n].
  Proof. intros H Hs. symmetry. eapply (proj1 (proj2 o_item_unique)); [apply orq_one; exact H|exact Hs]. Qed.
  Lemma o_main_unique ts a b : o_main ts a -> o_main ts b -> a = b.
  Proof.
    assert (P : forall ts ns, o_operands ts ns -> (2 <= List.length ns)%nat -> parts OR ts = [ts] -> False) by (intros t ns H Hl Hp; apply o_operands_parts in H; rewrite Hp in H; apply Forall2_length in H; cbn in H; lia).
    assert (Q : forall t n, o_item t n -> parts OR t = [t]) by (intros t n H; eapply o_seq_parts1; apply orq_one; exact H).
    intros Ha Hb. inversion Ha as [? ? Hi|? ns Hs Hl|? ns Ho Hl]; subst; inversion Hb as [? ? Hi'|? ns' Hs' Hl'|? ns' Ho' Hl']; subst;
      try (exfalso; eapply P; [eassumption|assumption|eauto using o_seq_parts1; fail]).
    - eapply (proj1 o_item_unique); eassumption.
    - exfalso. rewrite (o_seq_length_item _ _ _ Hi Hs') in Hl'. cbn in Hl'. lia.
    - exfalso. rewrite (o_seq_length_item _ _ _ Hi' Hs) in Hl. cbn in Hl. lia.
    - rewrite (proj1 (proj2 o_item_unique) _ _ Hs _ Hs'). reflexivity.
    - rewrite (proj1 (proj2 (proj2 (proj2 o_item_unique))) _ _ Ho _ (o_operands_parts _ _ Ho')). reflexivity.
  Qed.
  Lemma o_query_unique ts a b : o_query ts a -> o_query ts b -> a = b.
  Proof.
    assert (X : forall (t t' : list token) w k e e', t ++ [e] = t' ++ [w; k; e'] -> t = t' ++ [w; k] /\ e = e').
    { intros t t' w k e e' He. change [w; k; e'] with ([w; k] ++ [e']) in He. rewrite app_assoc in He. apply app_inj_tail in He. exact He. }
    intros Ha Hb. inversion Ha as [t n e Hm He|t n w k sc e Hm Hw Hk Hsc He]; subst; inversion Hb as [t' n' e' Hm' He' Heq|t' n' w' k' sc' e' Hm' Hw' Hk' Hsc' He' Heq]; subst.
    - apply app_inj_tail in Heq. destruct Heq as [-> ->]. eapply o_main_unique; eassumption.
    - symmetry in Heq. apply X in Heq. destruct Heq as [-> ->]. exfalso. eapply main_no_within; [apply o_main_sound; exact Hm|reflexivity|exact Hk'].
    - apply X in Heq. destruct Heq as [-> ->]. exfalso. eapply main_no_within; [apply o_main_sound; exact Hm'|reflexivity|exact Hk].
    - change [w'; k'; e'] with ([w'; k'] ++ [e']) in Heq. change [w; k; e] with ([w; k] ++ [e]) in Heq. rewrite !app_assoc in Heq. apply app_inj_tail in Heq. destruct Heq as [Heq ->].
      change [w'; k'] with ([w'] ++ [k']) in Heq. change [w; k] with ([w] ++ [k]) in Heq. rewrite !app_assoc in Heq. apply app_inj_tail in Heq. destruct Heq as [Heq ->]. apply app_inj_tail in Heq. destruct Heq as [-> ->].
      rewrite (o_main_unique _ _ _ Hm Hm'), (scope_fun _ _ _ Hsc Hsc'). reflexivity.
  Qed.
End OuterFacts.
