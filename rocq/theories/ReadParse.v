(** The documented reading and what the parser returns. *)
From Coq Require Import String.
From Verif Require Import Base Regex LexRules Lexer Grammar Antlr Ast Builder Parser LexSpec LitSpec
  GramSpec GramFacts ValueSpec ValueFacts SpellSpec BuilderFacts BuilderRules ParseSpec ParseFacts SimFacts LevelFacts SelFacts PrecFacts
  TreeSpec TreeFacts SitFacts LevelSpec LevelThm QuerySpec ConfigSpec ConfigFacts PropsLex PropsParse PropsConfig PropsTree PropsPrec PropsQuery ReadSpec ReadFacts ReadQuery.
Local Open Scope Z_scope.

Lemma no_dev_child n c : no_deviation n -> In c (q_children n) -> no_deviation c.
Proof. intros H Hc m d Hm. apply H. destruct n as [p l ch]. eapply sub_child; eassumption. Qed.
Lemma no_dev_children p l ch : no_deviation (QN p l ch) -> Forall no_deviation ch.
Proof. intros H. apply Forall_forall. intros c Hc. eapply no_dev_child; [exact H|exact Hc]. Qed.
Lemma sub_of_child root m c : subnode m root -> In c (q_children m) -> subnode c root.
Proof. intros Hm Hc. eapply subnode_trans; [|exact Hm]. destruct m as [p l ch]. eapply sub_child; [exact Hc|apply sub_here]. Qed.

Section Walk.
  Variables (E : penv) (C : pcfg) (toks : list token) (root : qnode).
  Notation sp_expr := (sp_expr E C). Notation sp_item := (sp_item E C). Notation sp_seq := (sp_seq E C).
  Notation tb_term := (tb_term E C). Notation tb_factor := (tb_factor E C).
  Notation rd_level := (rd_level E C). Notation rd_terms := (rd_terms E C). Notation rd_term := (rd_term E C).
  Notation rd_factors := (rd_factors E C). Notation rd_factor := (rd_factor E C).
  Notation rd_item := (rd_item E C). Notation rd_seq := (rd_seq E C). Notation rd_operand := (rd_operand E C).
  Notation rd_operands := (rd_operands E C). Notation rd_content := (rd_content E C).
  Notation canon_operand := (canon_operand E C). Notation canon_content := (canon_content E C).
  Hypothesis H19 : forall m c pre te post, subnode m root -> level_of m c -> toks = pre ++ te ++ post -> sp_expr te c ->
    (forall i, ~ deviates (shape te) i) -> textbook E C te c.
  Hypothesis H16 : forall m c pre tc post, subnode m root -> q_class m = CQueryGroup -> q_children m = [c] -> toks = pre ++ tc ++ post -> sp_content E C tc c ->
    canon_content tc c.
  Definition at_ (ts : list token) : Prop := exists pre post, toks = pre ++ ts ++ post.
  Lemma at_l a b : at_ (a ++ b) -> at_ a.
  Proof. intros (pre & post & H). exists pre, (b ++ post). rewrite H, <- app_assoc. reflexivity. Qed.
  Lemma at_r a b : at_ (a ++ b) -> at_ b.
  Proof. intros (pre & post & H). exists (pre ++ a), post. rewrite H, <- !app_assoc. reflexivity. Qed.
  Lemma at_tl k b : at_ (k :: b) -> at_ b.
  Proof. apply (at_r [k] b). Qed.
  Lemma level_textbook m b ts : subnode m root -> q_class m = CExpressionGroup \/ q_class m = CQuerySegment -> q_children m = [b] -> at_ ts -> sp_expr ts b ->
    (forall i, ~ deviates (shape ts) i) -> textbook E C ts b.
  Proof.
    intros Hm Hc Hb (pre & post & Ht) Hs Hd. destruct (class_eq_dec (q_class b) CExpression) as [He|Hne].
    - inversion Hs; subst; try discriminate He. apply rd_level_tb. apply rl_one, rt_one. eapply rf_basic; eassumption.
    - eapply H19; try eassumption. split; [exact Hb|]. destruct Hc as [Hc|Hc]; [left; exact Hc|right]. split; [exact Hc|]. split; [exact Hne|]. intros Hw. inversion Hs; subst; discriminate Hw.
  Qed.
  Lemma walk_level :
    (forall ts a, rd_level ts a -> no_deviation a -> (forall i, ~ deviates (tree_shape a) i) -> forall m b, subnode m root ->
       q_class m = CExpressionGroup \/ q_class m = CQuerySegment -> q_children m = [b] -> at_ ts -> sp_expr ts b -> b = a) /\
    (forall ts ns, rd_terms ts ns -> Forall no_deviation ns -> forall ns', Forall2 tb_term (parts OR ts) ns' -> (forall x, In x ns' -> subnode x root) -> at_ ts -> ns' = ns) /\
    (forall ts a, rd_term ts a -> no_deviation a -> forall b, tb_term ts b -> subnode b root -> at_ ts -> b = a) /\
    (forall ts ns, rd_factors ts ns -> Forall no_deviation ns -> forall ns', Forall2 tb_factor (parts AND ts) ns' -> (forall x, In x ns' -> subnode x root) -> at_ ts -> ns' = ns) /\
    (forall ts a, rd_factor ts a -> no_deviation a -> forall b, tb_factor ts b -> subnode b root -> at_ ts -> b = a).
  Proof.
    apply (rd_level_mutind E C
      (fun ts a => no_deviation a -> (forall i, ~ deviates (tree_shape a) i) -> forall m b, subnode m root ->
       q_class m = CExpressionGroup \/ q_class m = CQuerySegment -> q_children m = [b] -> at_ ts -> sp_expr ts b -> b = a)
      (fun ts ns => Forall no_deviation ns -> forall ns', Forall2 tb_term (parts OR ts) ns' -> (forall x, In x ns' -> subnode x root) -> at_ ts -> ns' = ns)
      (fun ts a => no_deviation a -> forall b, tb_term ts b -> subnode b root -> at_ ts -> b = a)
      (fun ts ns => Forall no_deviation ns -> forall ns', Forall2 tb_factor (parts AND ts) ns' -> (forall x, In x ns' -> subnode x root) -> at_ ts -> ns' = ns)
      (fun ts a => no_deviation a -> forall b, tb_factor ts b -> subnode b root -> at_ ts -> b = a)).
    - intros ts n Ht IH Hd Hs m b Hm Hc Hb Hat Hsp.
      assert (Htb : textbook E C ts b) by (eapply level_textbook; try eassumption; rewrite (rd_level_shape E C ts n) by (apply rl_one; exact Ht); exact Hs).
      unfold textbook in Htb. rewrite (term_parts _ _ _ _ Ht) in Htb. apply IH; auto. eapply sub_of_child; [exact Hm|rewrite Hb; left; reflexivity].
    - intros ts ns Ht IH Hl Hd Hs m b Hm Hc Hb Hat Hsp.
      assert (Htb : textbook E C ts b) by (eapply level_textbook; try eassumption; rewrite (rd_level_shape E C ts (QN POr (span ts) ns)) by (apply rl_or; assumption); exact Hs).
      unfold textbook in Htb. pose proof (Forall2_length _ _ _ (rd_terms_parts _ _ _ _ Ht)) as Hlen.
      assert (Hsub : subnode b root) by (eapply sub_of_child; [exact Hm|rewrite Hb; left; reflexivity]).
      assert (Hx : exists ns', Forall2 tb_term (parts OR ts) ns' /\ b = QN POr (span ts) ns').
      { destruct (parts OR ts) as [|p [|p' ps]]; [cbn in Hlen; lia|cbn in Hlen; lia|exact Htb]. }
      destruct Hx as (ns' & Hf & ->). rewrite (IH (no_dev_children _ _ _ Hd) ns' Hf); [reflexivity| |exact Hat]. intros x Hx. eapply sub_of_child; [exact Hsub|exact Hx].
    - intros ts n Ht IH Hd ns' Hf Hsub Hat. rewrite (term_parts _ _ _ _ Ht) in Hf. inversion Hf as [|? y ? ? H1 H2]; subst. inversion H2; subst. inversion Hd; subst. rewrite (IH ltac:(assumption) y H1); auto. apply Hsub. left. reflexivity.
    - intros ts n k ts' ns Ht IH Hk Hts IH' Hd ns' Hf Hsub Hat. rewrite parts_sep in Hf by (auto; eapply term_clean; exact Ht). inversion Hf as [|? y ? l H1 H2]; subst. inversion Hd as [|? ? Hd1 Hd2]; subst.
      rewrite (IH Hd1 y H1), (IH' Hd2 l H2); auto; try (intros; apply Hsub); cbn; auto; [eapply at_tl, at_r; exact Hat|eapply at_l; exact Hat].
    - intros ts n Ht IH Hd b Hb Hsub Hat. unfold tb_term in Hb. rewrite (factor_parts E C AND _ _ (or_introl eq_refl) Ht) in Hb. auto.
    - intros ts ns Ht IH Hl Hd b Hb Hsub Hat. unfold tb_term in Hb. pose proof (Forall2_length _ _ _ (rd_factors_parts _ _ _ _ Ht)) as Hlen.
      assert (Hx : exists ns', Forall2 tb_factor (parts AND ts) ns' /\ b = QN PAnd (span ts) ns').
      { destruct (parts AND ts) as [|p [|p' ps]]; [cbn in Hlen; lia|cbn in Hlen; lia|exact Hb]. }
      destruct Hx as (ns' & Hf & ->). rewrite (IH (no_dev_children _ _ _ Hd) ns' Hf); [reflexivity| |exact Hat]. intros x Hx. eapply sub_of_child; [exact Hsub|exact Hx].
    - intros ts n Ht IH Hd ns' Hf Hsub Hat. rewrite (factor_parts E C AND _ _ (or_introl eq_refl) Ht) in Hf. inversion Hf as [|? y ? ? H1 H2]; subst. inversion H2; subst. inversion Hd; subst. rewrite (IH ltac:(assumption) y H1); auto. apply Hsub. left. reflexivity.
    - intros ts n k ts' ns Ht IH Hk Hts IH' Hd ns' Hf Hsub Hat. rewrite parts_sep in Hf by (auto; eapply factor_clean; exact Ht). inversion Hf as [|? y ? l H1 H2]; subst. inversion Hd as [|? ? Hd1 Hd2]; subst.
      rewrite (IH Hd1 y H1), (IH' Hd2 l H2); auto; try (intros; apply Hsub); cbn; auto; [eapply at_tl, at_r; exact Hat|eapply at_l; exact Hat].
    - intros ta o tr q i op v fl Ha Ho Hr Hd b Hb Hsub Hat. inversion Hb as [? ? Hsp Hcl|k ts n Hk Hn He]; subst; [|exfalso; eapply attr_clash; [exact Ha|symmetry; exact He|exact Hk|cbn; auto]].
      inversion Hsp as [ta' o' tr' q' i' op' v' fl' Ha' Ho' Hr' He|l ts r n Hl Hn Hr' He|k ts n Hk Hn He|ts1 ns1 Hj1 Hlen1 He1|ts2 ns2 Hj2 Hlen2 He2]; subst; try (destruct Hcl; discriminate).
      + destruct (basic_split _ _ _ _ _ _ _ _ _ _ _ _ _ _ _ _ _ _ Ha' Ho' Hr' Ha Ho Hr He) as (-> & -> & -> & -> & ->). rewrite He. reflexivity.
      + exfalso. eapply attr_clash; [exact Ha|symmetry; exact He|exact Hl|cbn; auto].
    - intros l ts r n Hl Hn IH Hr Hd b Hb Hsub Hat. inversion Hb as [? ? Hsp Hcl|k ts' n' Hk Hn' He]; subst; [|exfalso; unfold is_tok in *; congruence].
      inversion Hsp as [ta' o' tr' q' i' op' v' fl' Ha' Ho' Hr' He|l' ts' r' n' Hl' Hn' Hr' He|k ts' n' Hk Hn' He|ts1 ns1 Hj1 Hlen1 He1|ts2 ns2 Hj2 Hlen2 He2]; subst; try (destruct Hcl; discriminate).
      + exfalso. eapply attr_clash; [exact Ha'|exact He|exact Hl|cbn; auto].
      + match goal with He : _ ++ [_] = _ ++ [_] |- _ => apply app_inj_tail in He; destruct He as [-> ->] end.
        rewrite (IH (no_dev_child _ n Hd ltac:(left; reflexivity)) (Hd _ n (sub_here _) (or_introl eq_refl) eq_refl) _ n' Hsub (or_introl eq_refl) eq_refl); auto. apply at_tl in Hat. eapply at_l. exact Hat.
    - intros k ts n Hk Hn IH Hd b Hb Hsub Hat. inversion Hb as [? ? Hsp Hcl|k' ts' n' Hk' Hn' He]; subst.
      + exfalso. inversion Hsp as [ta' o' tr' q' i' op' v' fl' Ha' Ho' Hr' He|l' ts' r' n' Hl' Hn' Hr' He|k' ts' n' Hk' Hn' He|ts1 ns1 Hj1 Hlen1 He1|ts2 ns2 Hj2 Hlen2 He2]; subst; try (destruct Hcl; discriminate).
        * eapply attr_clash; [exact Ha'|exact He|exact Hk|cbn; auto].
        * unfold is_tok in *; congruence.
      + rewrite (IH (no_dev_child _ n Hd ltac:(left; reflexivity)) n'); auto; [eapply sub_of_child; [exact Hsub|left; reflexivity]|eapply at_tl; exact Hat].
  Qed.

  Lemma walk_item :
    (forall ts a, rd_item ts a -> no_deviation a -> forall b, subnode b root -> at_ ts -> sp_item ts b -> b = a) /\
    (forall ts ns, rd_seq ts ns -> Forall no_deviation ns -> forall ns', (forall x, In x ns' -> subnode x root) -> at_ ts -> sp_seq ts ns' -> ns' = ns) /\
    (forall ts a, rd_operand ts a -> no_deviation a -> forall b, subnode b root -> at_ ts -> canon_operand ts b -> b = a) /\
    (forall ts ns, rd_operands ts ns -> Forall no_deviation ns -> forall ns', (forall x, In x ns' -> subnode x root) -> at_ ts -> Forall2 canon_operand (parts OR ts) ns' -> ns' = ns) /\
    (forall ts a, rd_content ts a -> no_deviation a -> forall b, subnode b root -> at_ ts -> canon_content ts b -> b = a).
  Proof.
    apply (rd_item_mutind E C
      (fun ts a => no_deviation a -> forall b, subnode b root -> at_ ts -> sp_item ts b -> b = a)
      (fun ts ns => Forall no_deviation ns -> forall ns', (forall x, In x ns' -> subnode x root) -> at_ ts -> sp_seq ts ns' -> ns' = ns)
      (fun ts a => no_deviation a -> forall b, subnode b root -> at_ ts -> canon_operand ts b -> b = a)
      (fun ts ns => Forall no_deviation ns -> forall ns', (forall x, In x ns' -> subnode x root) -> at_ ts -> Forall2 canon_operand (parts OR ts) ns' -> ns' = ns)
      (fun ts a => no_deviation a -> forall b, subnode b root -> at_ ts -> canon_content ts b -> b = a)).
    - intros tr tq v fl mn mx Hr Hq Hd b Hsub Hat Hb. inversion Hb as [tr' tq' v' fl' mn' mx' Hr' Hq' He|l r tq' mn' mx' Hl Hr' Hq' He|l te r tq' n mn' mx' Hl Hn Hr' Hq' He|l tc r tq' n mn' mx' Hl Hn Hr' Hq' He]; subst;
        try (exfalso; destruct (ReadQuery.regex_first _ _ _ _ _ Hr) as (k & x & -> & Hk); injection He as -> _; unfold is_tok in *; congruence).
      destruct (regex_split _ _ _ _ _ _ _ _ _ _ _ _ _ _ Hr' Hq' Hr Hq He) as [-> ->]. destruct (sp_regex_fun _ _ _ _ _ _ _ Hr Hr') as [-> ->]. destruct (quant_fun _ _ _ _ _ Hq Hq') as [-> ->]. reflexivity.
    - intros l r tq mn mx Hl Hr Hq Hd b Hsub Hat Hb. inversion Hb as [tr' tq' v' fl' mn' mx' Hr' Hq' He|l' r' tq' mn' mx' Hl' Hr' Hq' He|l' te r' tq' n mn' mx' Hl' Hn Hr' Hq' He|l' tc r' tq' n mn' mx' Hl' Hn Hr' Hq' He]; subst.
      + exfalso. destruct (ReadQuery.regex_first _ _ _ _ _ Hr') as (k & x & -> & Hk). injection He as -> _. unfold is_tok in *; congruence.
      + destruct (quant_fun _ _ _ _ _ Hq Hq') as [-> ->]. reflexivity.
      + exfalso. destruct (bracket_split l te r' tq' l [] r tq) as (_ & -> & _); [cbn [app]; f_equal; assumption|eapply (proj1 (expr_balanced E C)); exact Hn|reflexivity|rewrite Hr'; reflexivity|rewrite Hr; reflexivity|]. eapply (proj1 (expr_ne E C)); [exact Hn|reflexivity].
      + exfalso. unfold is_tok in *; congruence.
    - intros l te r tq n mn mx Hl Hn Hr Hq Hd b Hsub Hat Hb. inversion Hb as [tr' tq' v' fl' mn' mx' Hr' Hq' He|l' r' tq' mn' mx' Hl' Hr' Hq' He|l' te' r' tq' n' mn' mx' Hl' Hn' Hr' Hq' He|l' tc r' tq' n' mn' mx' Hl' Hn' Hr' Hq' He]; subst.
      + exfalso. destruct (ReadQuery.regex_first _ _ _ _ _ Hr') as (k & x & -> & Hk). injection He as -> _. unfold is_tok in *; congruence.
      + exfalso. destruct (bracket_split l [] r' tq' l te r tq) as (_ & <- & _); [cbn; f_equal; assumption|reflexivity|eapply (proj1 (rd_clean E C)); exact Hn|rewrite Hr'; reflexivity|rewrite Hr; reflexivity|]. apply (proj1 (rd_sound E C)) in Hn. eapply (proj1 (expr_ne E C)); [exact Hn|reflexivity].
      + destruct (bracket_split l te' r' tq' l te r tq) as (_ & -> & -> & ->); [f_equal; assumption|eapply (proj1 (expr_balanced E C)); exact Hn'|eapply (proj1 (rd_clean E C)); exact Hn|rewrite Hr'; reflexivity|rewrite Hr; reflexivity|].
        destruct (quant_fun _ _ _ _ _ Hq Hq') as [-> ->].
        rewrite (proj1 walk_level _ _ Hn (no_dev_child _ n Hd ltac:(left; reflexivity)) (Hd _ n (sub_here _) (or_intror eq_refl) eq_refl) _ n' Hsub (or_intror eq_refl) eq_refl); auto. apply at_tl in Hat. eapply at_l. exact Hat.
      + exfalso. unfold is_tok in *; congruence.
    - intros l te r tq n mn mx Hl Hn IH Hr Hq Hd b Hsub Hat Hb. inversion Hb as [tr' tq' v' fl' mn' mx' Hr' Hq' He|l' r' tq' mn' mx' Hl' Hr' Hq' He|l' te' r' tq' n' mn' mx' Hl' Hn' Hr' Hq' He|l' tc r' tq' n' mn' mx' Hl' Hn' Hr' Hq' He]; subst;
        try (exfalso; unfold is_tok in *; congruence).
      + exfalso. destruct (ReadQuery.regex_first _ _ _ _ _ Hr') as (k & x & -> & Hk). injection He as -> _. unfold is_tok in *; congruence.
      + destruct (bracket_split l tc r' tq' l te r tq) as (_ & -> & -> & ->); [f_equal; assumption|eapply content_bal; exact Hn'|apply rd_item_sound in Hn; eapply content_bal; exact Hn|rewrite Hr'; reflexivity|rewrite Hr; reflexivity|].
        destruct (quant_fun _ _ _ _ _ Hq Hq') as [-> ->].
        assert (Hat' : at_ te) by (apply at_tl in Hat; eapply at_l; exact Hat).
        rewrite (IH (no_dev_child _ n Hd ltac:(left; reflexivity)) n'); auto; [eapply sub_of_child; [exact Hsub|left; reflexivity]|].
        destruct Hat' as (pre & post & Ht). eapply H16; [exact Hsub|reflexivity|reflexivity|exact Ht|exact Hn'].
    - intros ts n Hn IH Hd ns' Hsub Hat Hs. inversion Hd; subst. destruct (item_seq_split E C ts n [] ns') as (b & Hb & [(_ & ->)|(bs & _ & Hbs)]); [apply rd_item_sound; exact Hn|exact I|rewrite app_nil_r; exact Hs| |inversion Hbs; exfalso; eapply (proj1 (item_ne E C)); eauto].
      + rewrite (IH ltac:(assumption) b); auto. apply Hsub. left. reflexivity.
      + exfalso. subst. destruct ts0; [|discriminate]. eapply (proj1 (item_ne E C)); [eassumption|reflexivity].
    - intros ts n ts' ns Hn IH Hs IH' Hd ns' Hsub Hat Hs'. inversion Hd as [|? ? Hd1 Hd2]; subst.
      destruct (item_seq_split E C ts n ts' ns') as (b & Hb & [(-> & _)|(bs & -> & Hbs)]); [apply rd_item_sound; exact Hn|eapply seq_starts; apply rd_item_sound; exact Hs|exact Hs'| |].
      + exfalso. apply rd_item_sound in Hs. eapply (proj1 (proj2 (item_ne E C))); [exact Hs|reflexivity].
      + rewrite (IH Hd1 b), (IH' Hd2 bs); auto; try (intros; apply Hsub); cbn; auto; [eapply at_r; exact Hat|eapply at_l; exact Hat].
    - intros ts n Hn IH Hc Hd b Hsub Hat (ns & Hs & ->). destruct (item_seq_split E C ts n [] ns) as (b & Hb & [(_ & ->)|(bs & _ & Hbs)]); [apply rd_item_sound; exact Hn|exact I|rewrite app_nil_r; exact Hs| |exfalso; eapply (proj1 (proj2 (item_ne E C))); [exact Hbs|reflexivity]].
      assert (Hcases : operand_of ts [b] = b \/ (operand_of ts [b] = QN PSequence (span ts) [b] /\ q_class b <> CQuerySegment)).
      { destruct b as [p l ch]. destruct p; cbn; auto; right; split; auto; discriminate. }
      destruct Hcases as [He|[He Hnc]]; rewrite He in *.
      + apply IH; auto.
      + exfalso. apply Hnc. rewrite (IH Hd b); auto. eapply sub_of_child; [exact Hsub|left; reflexivity].
    - intros ts ns Hs IH Hno Hd b Hsub Hat (ns' & Hs' & ->).
      assert (Hcases : (exists b, ns' = [b] /\ q_class b = CQuerySegment /\ operand_of ts ns' = b) \/ operand_of ts ns' = QN PSequence (span ts) ns').
      { destruct ns' as [|[p l ch] [|b' bs]]; [right; reflexivity| |right; cbn; destruct p; reflexivity]. destruct p; try (right; reflexivity). left. eexists. split; [reflexivity|]. split; reflexivity. }
      destruct Hcases as [(b & -> & Hc & He)|He]; rewrite He in *.
      + exfalso. apply (Hno b); [|exact Hc]. symmetry. apply IH; auto; [eapply no_dev_children; exact Hd|]. intros x [<-|[]]. exact Hsub.
      + rewrite (IH (no_dev_children _ _ _ Hd) ns'); auto. intros x Hx. eapply sub_of_child; [exact Hsub|exact Hx].
    - intros ts n Hn IH Hd ns' Hsub Hat Hf. rewrite parts_one in Hf by (auto; apply tidy_clean; eapply operand_tidy; exact Hn). inversion Hf as [|? m ? ? H1 H2]; subst. inversion H2; subst. inversion Hd; subst. rewrite (IH ltac:(assumption) m); auto. apply Hsub. left. reflexivity.
    - intros ts n k ts' ns Hn IH Hk Hs IH' Hd ns' Hsub Hat Hf. rewrite parts_sep in Hf by (auto; apply tidy_clean; eapply operand_tidy; exact Hn). inversion Hf as [|? m ? ms H1 H2]; subst. inversion Hd as [|? ? Hd1 Hd2]; subst.
      rewrite (IH Hd1 m), (IH' Hd2 ms); auto; try (intros; apply Hsub); cbn; auto; [eapply at_tl, at_r; exact Hat|eapply at_l; exact Hat].
    - intros ts ns Hs IH Hd b Hsub Hat Hc. unfold canon_content in Hc. rewrite (seq_parts1 _ _ _ _ Hs) in Hc. destruct Hc as (ns' & Hs' & ->).
      rewrite (IH (no_dev_children _ _ _ Hd) ns'); auto. intros x Hx. eapply sub_of_child; [exact Hsub|exact Hx].
    - intros ts ns Hs IH Hl Hd b Hsub Hat Hc. unfold canon_content in Hc. pose proof (Forall2_length _ _ _ (rd_operands_parts _ _ _ _ Hs)) as Hlen.
      assert (Hx : exists ns', Forall2 canon_operand (parts OR ts) ns' /\ b = QN PDisjunction (span ts) ns').
      { destruct (parts OR ts) as [|p [|p' ps]]; [cbn in Hlen; lia|cbn in Hlen; lia|exact Hc]. }
      destruct Hx as (ns' & Hf & ->). rewrite (IH (no_dev_children _ _ _ Hd) ns'); auto. intros x Hx. eapply sub_of_child; [exact Hsub|exact Hx].
  Qed.
  Lemma walk_main ts a b : rd_main E C ts a -> no_deviation a -> subnode b root -> at_ ts -> canon_main E C ts b -> b = a.
  Proof.
    intros Ha Hd Hsub Hat Hc. unfold canon_main in Hc. inversion Ha as [? ? Hi|? ns Hs Hl|? ns Ho Hl]; subst.
    - rewrite (seq_parts1 E C ts [a]) in Hc by (apply rq_one; exact Hi). destruct Hc as (ns & Hs & ->). destruct (item_seq_split E C ts a [] ns) as (b & Hb & [(_ & ->)|(bs & _ & Hbs)]); [apply rd_item_sound; exact Hi|exact I|rewrite app_nil_r; exact Hs| |exfalso; eapply (proj1 (proj2 (item_ne E C))); [exact Hbs|reflexivity]].
      eapply (proj1 walk_item); eassumption.
    - rewrite (seq_parts1 E C ts ns Hs) in Hc. destruct Hc as (ns' & Hs' & ->).
      assert (Hcases : (exists x, ns' = [x]) \/ (match ns' with [x] => x | _ => QN PSequence (span ts) ns' end = QN PSequence (span ts) ns')) by (destruct ns' as [|x [|y l]]; eauto).
      destruct Hcases as [(x & ->)|He].
      + exfalso. assert (He : [x] = ns). { apply (proj1 (proj2 walk_item) _ _ Hs (no_dev_children _ _ _ Hd)); auto. intros y [<-|[]]. exact Hsub. } subst ns. cbn in Hl. lia.
      + rewrite He in *. rewrite (proj1 (proj2 walk_item) _ _ Hs (no_dev_children _ _ _ Hd) ns'); auto. intros x Hx. eapply sub_of_child; [exact Hsub|exact Hx].
    - pose proof (Forall2_length _ _ _ (rd_operands_parts _ _ _ _ Ho)) as Hlen.
      assert (Hx : exists ns', Forall2 canon_operand (parts OR ts) ns' /\ b = QN PDisjunction (span ts) ns').
      { destruct (parts OR ts) as [|p [|p' ps]]; [cbn in Hlen; lia|cbn in Hlen; lia|exact Hc]. }
      destruct Hx as (ns' & Hf & ->). rewrite (proj1 (proj2 (proj2 (proj2 walk_item))) _ _ Ho (no_dev_children _ _ _ Hd) ns'); auto. intros x Hx. eapply sub_of_child; [exact Hsub|exact Hx].
  Qed.
End Walk.
