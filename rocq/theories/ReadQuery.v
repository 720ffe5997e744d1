(** The documented reading outside brackets: soundness, existence, uniqueness. *)
From Coq Require Import String.
From Verif Require Import Base Regex LexRules Lexer Grammar Antlr Ast Builder Parser LexSpec LitSpec
  GramSpec GramFacts ValueSpec ValueFacts SpellSpec BuilderFacts BuilderRules ParseSpec ParseFacts LevelFacts SelFacts PrecFacts
  TreeSpec TreeFacts SitFacts LevelSpec LevelThm QuerySpec PropsParse PropsTree ReadSpec ReadFacts.
Local Open Scope Z_scope.

Lemma Forall2_length {A B} (R : A -> B -> Prop) l l' : Forall2 R l l' -> List.length l = List.length l'.
Proof. induction 1; cbn; congruence. Qed.

(** ** The extent of an item *)
(** Tokens with which an item begins. *)
Definition starts_item (r : list token) : Prop := match r with [] => True | t :: _ => In (t_type t) [REGEXP; L_SQUARE_BRACKET; L_PAREN] end.
Lemma quant_prefix tq mn mx tq' mn' mx' r r' : quantified tq mn mx -> quantified tq' mn' mx' -> starts_item r -> starts_item r' ->
  tq ++ r = tq' ++ r' -> tq = tq' /\ r = r'.
Proof.
  intros H H' Hr Hr' He.
  assert (G : forall t x, starts_item (t :: x) -> In (t_type t) [Q_ZERO_OR_MORE; Q_ONE_OR_MORE; Q_ZERO_OR_ONE; L_CURLY_BRACKET] -> False)
    by (intros t x Hs Hi; cbn in Hs, Hi; intuition congruence).
  inversion H; subst; inversion H'; subst; cbn [app] in He; unfold is_tok, int_tok in *;
    repeat match goal with Hx : _ /\ _ |- _ => destruct Hx end;
    try (split; [reflexivity|exact He]);
    try (exfalso; subst r; eapply G; [exact Hr|match goal with Ht : t_type ?t = ?x |- In (t_type ?t) _ => rewrite Ht; cbn; tauto end]; fail);
    try (exfalso; subst r'; eapply G; [exact Hr'|match goal with Ht : t_type ?t = ?x |- In (t_type ?t) _ => rewrite Ht; cbn; tauto end]; fail);
    try (injection He; intros; subst; try (split; reflexivity); exfalso; congruence).
Qed.
(** An item without its repetition. *)
Inductive core : list token -> Prop :=
| co_lit k : t_type k = REGEXP -> core [k]
| co_flags k s f : t_type k = REGEXP -> t_type s = FWD_SLASH -> core [k; s; f]
| co_sq l te r : t_type l = L_SQUARE_BRACKET -> balanced (types te) -> t_type r = R_SQUARE_BRACKET -> core (l :: te ++ [r])
| co_par l te r : t_type l = L_PAREN -> balanced (types te) -> t_type r = R_PAREN -> core (l :: te ++ [r]).
Lemma core_prefix a b r r' : core a -> core b -> a ++ r = b ++ r' -> (forall t x, r = t :: x -> t_type t <> FWD_SLASH) -> (forall t x, r' = t :: x -> t_type t <> FWD_SLASH) -> a = b /\ r = r'.
Proof.
  intros H H' He Hr Hr'.
  assert (G : forall (x y : list token) c d s s', balanced (types x) -> balanced (types y) -> closes (t_type c) = true -> closes (t_type d) = true ->
    (x ++ [c]) ++ s = (y ++ [d]) ++ s' -> x ++ [c] = y ++ [d] /\ s = s').
  { intros x y c d s s' Hx Hy Hc Hd Hxy. rewrite <- !app_assoc in Hxy. cbn [app] in Hxy. pose proof (f_equal types Hxy) as Ht. rewrite !types_app in Ht. cbn [map] in Ht.
    destruct (balanced_unique _ _ _ _ _ _ Hx Hy Hc Hd Ht) as (Ht1 & Ht2 & Ht3). destruct (types_inj _ _ _ _ Ht1 Hxy) as [-> Hs]. injection Hs as -> ->. auto. }
  inversion H as [k Hk|k s f Hk Hs|l te rr Hl Hb Hrr|l te rr Hl Hb Hrr]; subst; inversion H' as [k' Hk'|k' s' f' Hk' Hs'|l' te' rr' Hl' Hb' Hrr'|l' te' rr' Hl' Hb' Hrr']; subst; cbn [app] in He;
    try (exfalso; injection He; intros; subst; congruence);
    try (injection He as -> He; apply G in He; [destruct He as [-> ->]; auto|assumption|assumption|rewrite ?Hrr, ?Hrr'; reflexivity|rewrite ?Hrr, ?Hrr'; reflexivity]; fail).
  - injection He as -> ->. auto.
  - exfalso. injection He as -> He. eapply Hr; [exact He|exact Hs'].
  - exfalso. injection He as -> He. eapply Hr'; [symmetry; exact He|exact Hs].
  - injection He as -> -> -> ->. auto.
Qed.

Section Query.
  Variables (E : penv) (C : pcfg).
  Notation sp_expr := (sp_expr E C). Notation sp_regex := (sp_regex E C). Notation sp_item := (sp_item E C). Notation sp_seq := (sp_seq E C).
  Notation rd_level := (rd_level E C). Notation rd_terms := (rd_terms E C). Notation rd_term := (rd_term E C).
  Notation rd_factors := (rd_factors E C). Notation rd_factor := (rd_factor E C).
  Notation rd_item := (rd_item E C). Notation rd_seq := (rd_seq E C). Notation rd_operand := (rd_operand E C).
  Notation rd_operands := (rd_operands E C). Notation rd_content := (rd_content E C).
  Notation rd_main := (rd_main E C). Notation rd_query := (rd_query E C).

  (** ** Existence inside brackets *)
  Lemma level_terms ts : (exists n, rd_level ts n) <-> exists ns, rd_terms ts ns.
  Proof.
    split.
    - intros (n & H). inversion H as [? ? Ht|? ns Ht _]; subst; [exists [n]; constructor; exact Ht|eauto].
    - intros (ns & H). destruct ns as [|n [|n' ns]]; [exfalso; eapply terms_ne; [exact H|reflexivity]| |].
      + exists n. inversion H as [? ? Ht|? ? ? ? ? ? ? Ht]; subst; [constructor; exact Ht|exfalso; eapply terms_ne; [exact Ht|reflexivity]].
      + eexists. apply rl_or; [exact H|cbn; lia].
  Qed.
  Lemma term_factors ts : (exists n, rd_term ts n) <-> exists ns, rd_factors ts ns.
  Proof.
    split.
    - intros (n & H). inversion H as [? ? Ht|? ns Ht _]; subst; [exists [n]; constructor; exact Ht|eauto].
    - intros (ns & H). destruct ns as [|n [|n' ns]]; [exfalso; eapply factors_ne; [exact H|reflexivity]| |].
      + exists n. inversion H as [? ? Ht|? ? ? ? ? ? ? Ht]; subst; [constructor; exact Ht|exfalso; eapply factors_ne; [exact Ht|reflexivity]].
      + eexists. apply rt_and; [exact H|cbn; lia].
  Qed.
  Lemma factors_join ts ns : rd_factors ts ns -> forall k ts' ns', is_tok AND k -> rd_factors ts' ns' -> rd_factors (ts ++ k :: ts') (ns ++ ns').
  Proof.
    induction 1 as [ts n H|ts n k0 ts0 ns H Hk0 Hs IH]; intros k ts' ns' Hk H'; [constructor; auto|].
    rewrite <- app_assoc. cbn [app]. constructor; auto.
  Qed.
  Lemma terms_join ts ns : rd_terms ts ns -> forall k ts' ns', is_tok OR k -> rd_terms ts' ns' -> rd_terms (ts ++ k :: ts') (ns ++ ns').
  Proof.
    induction 1 as [ts n H|ts n k0 ts0 ns H Hk0 Hs IH]; intros k ts' ns' Hk H'; [constructor; auto|].
    rewrite <- app_assoc. cbn [app]. constructor; auto.
  Qed.
  Lemma term_join ts n ts' n' k : rd_term ts n -> is_tok AND k -> rd_term ts' n' -> exists m, rd_term (ts ++ k :: ts') m.
  Proof.
    intros H Hk H'. destruct (proj1 (term_factors ts) (ex_intro _ _ H)) as (a & Ha). destruct (proj1 (term_factors ts') (ex_intro _ _ H')) as (b & Hb).
    apply term_factors. eexists. eapply factors_join; eauto.
  Qed.
  Lemma terms_and ts ns : rd_terms ts ns -> forall k ts' ns', is_tok AND k -> rd_terms ts' ns' -> exists ms, rd_terms (ts ++ k :: ts') ms.
  Proof.
    induction 1 as [ts n H|ts n k0 ts0 ns H Hk0 Hs IH]; intros k ts' ns' Hk H'.
    - inversion H' as [? n' H1|t1 n' k1 t2 ns2 H1 Hk1 H2]; subst.
      + destruct (term_join _ _ _ _ k H Hk H1) as (m & Hm). exists [m]. constructor. exact Hm.
      + destruct (term_join _ _ _ _ k H Hk H1) as (m & Hm). exists (m :: ns2). replace (ts ++ k :: t1 ++ k1 :: t2) with ((ts ++ k :: t1) ++ k1 :: t2) by (rewrite <- app_assoc; reflexivity).
        constructor; auto.
    - destruct (IH _ _ _ Hk H') as (ms & Hms). exists (n :: ms). rewrite <- app_assoc. cbn [app]. constructor; auto.
  Qed.
  Lemma terms_not ts ns k : rd_terms ts ns -> is_tok NOT k -> exists ms, rd_terms (k :: ts) ms.
  Proof.
    intros H Hk.
    assert (Gf : forall x l, rd_factors x l -> exists l', rd_factors (k :: x) l').
    { intros x l Hl. inversion Hl as [? f Hf|x1 f k1 x2 l2 Hf Hk1 Hl2]; subst.
      - eexists. apply rfs_one. apply rf_not; [exact Hk|exact Hf].
      - eexists. change (k :: x1 ++ k1 :: x2) with ((k :: x1) ++ k1 :: x2). apply rfs_more; [apply rf_not; [exact Hk|exact Hf]|exact Hk1|exact Hl2]. }
    assert (Gt : forall x n, rd_term x n -> exists m, rd_term (k :: x) m).
    { intros x n Ht. apply term_factors. destruct (proj1 (term_factors x) (ex_intro _ _ Ht)) as (l & Hl). eapply Gf. exact Hl. }
    inversion H as [? n Ht|x1 n k1 x2 l2 Ht Hk1 Hl2]; subst; destruct (Gt _ _ Ht) as (m & Hm).
    - exists [m]. constructor. exact Hm.
    - exists (m :: l2). change (k :: x1 ++ k1 :: x2) with ((k :: x1) ++ k1 :: x2). constructor; auto.
  Qed.
  Lemma expr_read :
    (forall ts n, sp_expr ts n -> exists a, rd_level ts a) /\
    (forall sep ts ns, sp_exprs E C sep ts ns -> sep = AND \/ sep = OR -> exists a, rd_level ts a).
  Proof.
    apply (sp_expr_mutind E C (fun ts n => exists a, rd_level ts a) (fun sep ts ns => sep = AND \/ sep = OR -> exists a, rd_level ts a)).
    - intros. eexists. apply rl_one, rt_one. eapply rf_basic; eassumption.
    - intros l ts r n Hl _ (a & Ha) Hr. eexists. apply rl_one, rt_one. apply rf_group; eassumption.
    - intros k ts n Hk _ Ha. apply level_terms in Ha. destruct Ha as (ns & Ha). apply level_terms. eapply terms_not; eassumption.
    - auto.
    - auto.
    - auto.
    - intros sep ts n k ts' ns _ IH Hk _ IH' Hs. specialize (IH' Hs). apply level_terms in IH, IH'. destruct IH as (a & Ha). destruct IH' as (b & Hb). apply level_terms.
      destruct Hs; subst sep; [eapply terms_and; eassumption|eexists; eapply terms_join; eassumption].
  Qed.

  (** ** Soundness outside brackets *)
  Lemma rd_item_sound :
    (forall ts n, rd_item ts n -> sp_item ts n) /\ (forall ts ns, rd_seq ts ns -> sp_seq ts ns) /\
    (forall ts n, rd_operand ts n -> sp_operand E C ts n) /\ (forall ts ns, rd_operands ts ns -> sp_alts E C ts ns) /\
    (forall ts n, rd_content ts n -> sp_content E C ts n).
  Proof.
    apply (rd_item_mutind E C sp_item sp_seq (sp_operand E C) (sp_alts E C) (sp_content E C)); intros.
    - apply si_literal; assumption.
    - apply si_wildcard; assumption.
    - apply si_segment; try assumption. apply (proj1 (rd_sound E C)). assumption.
    - apply si_group; assumption.
    - apply sq_one; assumption.
    - apply sq_more; assumption.
    - apply sop_item; assumption.
    - apply sop_seq; assumption.
    - apply sal_one; assumption.
    - apply sal_more; assumption.
    - apply sc_seq; assumption.
    - apply sc_alts; assumption.
  Qed.
  Lemma rd_main_sound ts n : rd_main ts n -> sp_main E C ts n.
  Proof.
    intros H. inversion H; subst; [apply sm_item|apply sm_content, sc_seq|apply sm_content, sc_alts]; auto; apply rd_item_sound; assumption.
  Qed.
  Lemma rd_query_sound ts n : rd_query ts n -> sp_query E C ts n.
  Proof. intros H. inversion H; subst; [apply sqy_plain|apply sqy_within]; auto using rd_main_sound. Qed.

  (** ** Existence outside brackets *)
  Lemma seq_one_item ts n : rd_seq ts [n] -> rd_item ts n.
  Proof. intros H. inversion H as [? ? Hi|? ? ? ? Hi Hs]; subst; [exact Hi|inversion Hs]. Qed.
  Lemma seq_operand ts ns : rd_seq ts ns -> exists b, rd_operand ts b.
  Proof.
    intros H. assert (Hd : (exists n, ns = [n] /\ q_class n = CQuerySegment) \/ forall n, ns = [n] -> q_class n <> CQuerySegment).
    { destruct ns as [|n [|n' ns]]; [right; discriminate| |right; discriminate]. destruct (class_eq_dec (q_class n) CQuerySegment) as [Hc|Hc]; [left; eauto|right; intros m Hm; injection Hm as <-; exact Hc]. }
    destruct Hd as [(n & -> & Hc)|Hn]; eexists; [apply ro_segment; [apply seq_one_item; exact H|exact Hc]|apply ro_seq; eassumption].
  Qed.
  Lemma item_read :
    (forall ts n, sp_item ts n -> exists a, rd_item ts a) /\ (forall ts ns, sp_seq ts ns -> exists a, rd_seq ts a) /\
    (forall ts ns, sp_alts E C ts ns -> exists a, rd_operands ts a /\ List.length a = List.length ns) /\ (forall ts n, sp_operand E C ts n -> exists a, rd_operand ts a) /\
    (forall ts n, sp_content E C ts n -> exists a, rd_content ts a).
  Proof.
    apply (sp_item_mutind E C (fun ts n => exists a, rd_item ts a) (fun ts ns => exists a, rd_seq ts a)
      (fun ts ns => exists a, rd_operands ts a /\ List.length a = List.length ns) (fun ts n => exists a, rd_operand ts a) (fun ts n => exists a, rd_content ts a)).
    - intros. eexists. eapply ri_literal; eassumption.
    - intros. eexists. eapply ri_wildcard; eassumption.
    - intros l te r tq n mn mx Hl He Hr Hq. apply expr_read in He. destruct He as (a & Ha). eexists. eapply ri_segment; eassumption.
    - intros l tc r tq n mn mx Hl _ (a & Ha) Hr Hq. eexists. eapply ri_group; eassumption.
    - intros ts n _ (a & Ha). exists [a]. apply rq_one. exact Ha.
    - intros ts n ts' ns _ (a & Ha) _ (b & Hb). exists (a :: b). apply rq_more; assumption.
    - intros ts n _ (a & Ha). exists [a]. split; [apply ros_one; exact Ha|reflexivity].
    - intros ts n k ts' ns _ (a & Ha) Hk _ (b & Hb & Hl). exists (a :: b). split; [apply ros_more; assumption|cbn; congruence].
    - intros ts n _ (a & Ha). eapply seq_operand. apply rq_one. exact Ha.
    - intros ts ns _ (a & Ha). eapply seq_operand. exact Ha.
    - intros ts ns _ (a & Ha). eexists. apply rc_seq. exact Ha.
    - intros ts ns _ (a & Ha & Hl) H2. eexists. apply rc_or; [exact Ha|lia].
  Qed.
  Lemma seq_main ts ns : rd_seq ts ns -> exists a, rd_main ts a.
  Proof.
    intros H. destruct ns as [|n [|n' ns]]; [inversion H| |].
    - exists n. apply rm_item, seq_one_item. exact H.
    - eexists. apply rm_seq; [exact H|cbn; lia].
  Qed.
  Lemma main_read ts n : sp_main E C ts n -> exists a, rd_main ts a.
  Proof.
    intros H. inversion H as [? ? Hi|? ? Hc]; subst.
    - apply item_read in Hi. destruct Hi as (a & Ha). exists a. apply rm_item. exact Ha.
    - inversion Hc as [? ns Hs|? ns Ha Hl]; subst.
      + apply item_read in Hs. destruct Hs as (a & Hs). eapply seq_main. exact Hs.
      + apply item_read in Ha. destruct Ha as (a & Ha & Hl'). eexists. apply rm_or; [exact Ha|lia].
  Qed.
  Lemma query_read ts n : sp_query E C ts n -> exists a, rd_query ts a.
  Proof.
    intros H. inversion H as [? ? e Hm He|? ? w k sc e Hm Hw Hk Hsc He]; subst; destruct (main_read _ _ Hm) as (a & Ha); eexists; [apply ry_plain|apply ry_within]; eassumption.
  Qed.

  (** ** Items and separators *)
  Lemma content_balanced :
    (forall ts n, sp_item ts n -> tidy ts) /\ (forall ts ns, sp_seq ts ns -> tidy ts) /\
    (forall ts ns, sp_alts E C ts ns -> balanced (types ts)) /\ (forall ts n, sp_operand E C ts n -> tidy ts) /\
    (forall ts n, sp_content E C ts n -> balanced (types ts)).
  Proof.
    assert (Q : forall tq mn mx, quantified tq mn mx -> tidy tq) by (intros; unfold tidy; apply inert_word; eapply quant_inert; eassumption).
    assert (A : forall a b, tidy a -> tidy b -> tidy (a ++ b)).
    { intros a b [H1 H2] [H3 H4]. unfold tidy. rewrite types_app, ops_app by exact H1. rewrite H2, H4. split; [apply balanced_app; assumption|reflexivity]. }
    apply (sp_item_mutind E C (fun ts n => tidy ts) (fun ts ns => tidy ts) (fun ts ns => balanced (types ts)) (fun ts n => tidy ts) (fun ts n => balanced (types ts))).
    - intros tr tq v fl mn mx Hr Hq. apply A; [|eapply Q; exact Hq]. unfold tidy. apply inert_word. eapply regex_inert. exact Hr.
    - intros l r tq mn mx Hl Hr Hq. apply (A [l; r] tq); [|eapply Q; exact Hq]. unfold tidy. cbn [map]. rewrite Hl, Hr. split; reflexivity.
    - intros l te r tq n mn mx Hl He Hr Hq. replace (l :: te ++ r :: tq) with ((l :: te ++ [r]) ++ tq) by (cbn; rewrite <- app_assoc; reflexivity).
      apply A; [|eapply Q; exact Hq]. unfold tidy. cbn [map]. rewrite types_app. cbn [map]. rewrite Hl, Hr. apply balanced_wrap; auto. eapply (proj1 (expr_balanced E C)). exact He.
    - intros l te r tq n mn mx Hl _ IH Hr Hq. replace (l :: te ++ r :: tq) with ((l :: te ++ [r]) ++ tq) by (cbn; rewrite <- app_assoc; reflexivity).
      apply A; [|eapply Q; exact Hq]. unfold tidy. cbn [map]. rewrite types_app. cbn [map]. rewrite Hl, Hr. apply balanced_wrap; auto.
    - auto.
    - auto.
    - intros ts n _ [IH _]. exact IH.
    - intros ts n k ts' ns _ [IH _] Hk _ IH'. apply (sep_balanced OR); auto.
    - auto.
    - auto.
    - intros ts ns _ [IH _]. exact IH.
    - auto.
  Qed.
  Lemma item_tidy ts n : sp_item ts n -> tidy ts. Proof. apply (proj1 content_balanced). Qed.
  Lemma seq_tidy ts ns : sp_seq ts ns -> tidy ts. Proof. apply (proj1 (proj2 content_balanced)). Qed.
  Lemma sp_operand_tidy ts n : sp_operand E C ts n -> tidy ts. Proof. apply (proj1 (proj2 (proj2 (proj2 content_balanced)))). Qed.
  Lemma content_bal ts n : sp_content E C ts n -> balanced (types ts). Proof. apply (proj2 (proj2 (proj2 (proj2 content_balanced)))). Qed.
  Lemma tidy_clean sep ts : tidy ts -> clean sep ts.
  Proof. intros [H1 H2]. split; [exact H1|]. rewrite H2. intros []. Qed.
  Lemma quant_not_slash tq mn mx r : quantified tq mn mx -> starts_item r -> forall t x, tq ++ r = t :: x -> t_type t <> FWD_SLASH.
  Proof.
    intros Hq Hr t x He. inversion Hq; subst; cbn [app] in He; try (injection He as -> _); unfold is_tok, int_tok in *; try congruence.
    subst r. cbn in Hr. intuition congruence.
  Qed.
  Lemma item_core ts n : sp_item ts n -> exists a tq mn mx, ts = a ++ tq /\ core a /\ quantified tq mn mx.
  Proof.
    intros H. inversion H as [tr tq v fl mn mx Hr Hq|l r tq mn mx Hl Hr Hq|l te r tq c mn mx Hl He Hr Hq|l tc r tq c mn mx Hl He Hr Hq]; subst.
    - exists tr, tq, mn, mx. split; [reflexivity|]. split; [|exact Hq]. inversion Hr; subst; [apply co_lit|apply co_flags]; assumption.
    - exists [l; r], tq, mn, mx. split; [reflexivity|]. split; [|exact Hq]. apply (co_sq l [] r); auto. reflexivity.
    - exists (l :: te ++ [r]), tq, mn, mx. split; [cbn; rewrite <- app_assoc; reflexivity|]. split; [|exact Hq]. apply co_sq; auto. eapply (proj1 (expr_balanced E C)). exact He.
    - exists (l :: tc ++ [r]), tq, mn, mx. split; [cbn; rewrite <- app_assoc; reflexivity|]. split; [|exact Hq]. apply co_par; auto. eapply content_bal. exact He.
  Qed.
  Lemma item_prefix a na b nb r r' : sp_item a na -> sp_item b nb -> starts_item r -> starts_item r' -> a ++ r = b ++ r' -> a = b /\ r = r'.
  Proof.
    intros Ha Hb Hr Hr' He. destruct (item_core _ _ Ha) as (a1 & q1 & mn1 & mx1 & -> & Hc1 & Hq1). destruct (item_core _ _ Hb) as (b1 & q2 & mn2 & mx2 & -> & Hc2 & Hq2).
    rewrite <- !app_assoc in He. destruct (core_prefix _ _ _ _ Hc1 Hc2 He) as [-> He2]; [eapply quant_not_slash; eassumption|eapply quant_not_slash; eassumption|].
    destruct (quant_prefix _ _ _ _ _ _ _ _ Hq1 Hq2 Hr Hr' He2) as [-> ->]. auto.
  Qed.
  Lemma item_starts ts n x : sp_item ts n -> starts_item (ts ++ x).
  Proof. intros H. inversion H as [? ? ? ? ? ? Hr| | |]; subst; [inversion Hr; subst|..]; unfold is_tok in *; cbn; rewrite ?H0; auto; match goal with He : t_type _ = _ |- _ => rewrite He; auto end. Qed.
  Lemma seq_starts ts ns : sp_seq ts ns -> starts_item ts.
  Proof. intros H. inversion H as [? ? Hi|? ? ? ? Hi _]; subst; [rewrite <- (app_nil_r ts)|]; eapply item_starts; exact Hi. Qed.
  Lemma item_seq_split ts n ts' ns' : sp_item ts n -> starts_item ts' -> sp_seq (ts ++ ts') ns' ->
    exists b, sp_item ts b /\ ((ts' = [] /\ ns' = [b]) \/ exists bs, ns' = b :: bs /\ sp_seq ts' bs).
  Proof.
    intros Hi Hst Hs. inversion Hs as [t b Hb He|t b t' bs Hb Hbs He]; subst.
    - destruct (item_prefix ts n (ts ++ ts') b ts' [] Hi Hb Hst I ltac:(rewrite app_nil_r; reflexivity)) as [He ->]. rewrite app_nil_r in Hb. exists b. auto.
    - destruct (item_prefix ts n t b ts' t' Hi Hb Hst (seq_starts _ _ Hbs) (eq_sym He)) as [-> ->]. exists b. split; [exact Hb|]. right. exists bs. auto.
  Qed.

  (** ** Uniqueness outside brackets *)
  Lemma quant_fun tq mn mx mn' mx' : quantified tq mn mx -> quantified tq mn' mx' -> mn = mn' /\ mx = mx'.
  Proof. apply C09_unambiguous. Qed.
  (** The parts of two spellings of the same item agree. *)
  Lemma bracket_split l (te : list token) r tq l' te' r' tq' : l :: te ++ r :: tq = l' :: te' ++ r' :: tq' -> balanced (types te) -> balanced (types te') ->
    closes (t_type r) = true -> closes (t_type r') = true -> l = l' /\ te = te' /\ r = r' /\ tq = tq'.
  Proof.
    intros He H1 H2 H3 H4. injection He as -> He. pose proof (f_equal types He) as Ht. rewrite !types_app in Ht. cbn [map] in Ht.
    destruct (balanced_unique _ _ _ _ _ _ H1 H2 H3 H4 Ht) as (Ht1 & _ & _). destruct (types_inj _ _ _ _ Ht1 He) as [-> Hs]. injection Hs as -> ->. auto.
  Qed.
  Lemma regex_split tr v fl tq mn mx tr' v' fl' tq' mn' mx' : sp_regex tr v fl -> quantified tq mn mx -> sp_regex tr' v' fl' -> quantified tq' mn' mx' ->
    tr ++ tq = tr' ++ tq' -> tr = tr' /\ tq = tq'.
  Proof.
    intros H1 H2 H3 H4 He. eapply core_prefix; [| |exact He| |].
    - inversion H1; subst; [apply co_lit|apply co_flags]; assumption.
    - inversion H3; subst; [apply co_lit|apply co_flags]; assumption.
    - intros t x Ht. eapply (quant_not_slash _ _ _ [] H2 I). rewrite app_nil_r. exact Ht.
    - intros t x Ht. eapply (quant_not_slash _ _ _ [] H4 I). rewrite app_nil_r. exact Ht.
  Qed.
  Lemma operand_tidy ts n : rd_operand ts n -> tidy ts.
  Proof. intros H. apply rd_item_sound in H. eapply sp_operand_tidy. exact H. Qed.
  Lemma rd_operands_parts ts ns : rd_operands ts ns -> Forall2 rd_operand (parts OR ts) ns.
  Proof.
    induction 1 as [ts n H|ts n k ts' ns H Hk _ IH].
    - rewrite parts_one by (auto; apply tidy_clean; eapply operand_tidy; exact H). constructor; auto.
    - rewrite parts_sep by (auto; apply tidy_clean; eapply operand_tidy; exact H). constructor; auto.
  Qed.
  Lemma seq_parts1 ts ns : rd_seq ts ns -> parts OR ts = [ts].
  Proof. intros H. apply parts_one; auto. apply tidy_clean. apply rd_item_sound in H. eapply seq_tidy. exact H. Qed.
  Lemma regex_first tr v fl : sp_regex tr v fl -> exists k x, tr = k :: x /\ t_type k = REGEXP.
  Proof. intros H. inversion H; subst; eauto. Qed.
  Lemma rd_item_unique :
    (forall ts a, rd_item ts a -> forall b, rd_item ts b -> a = b) /\ (forall ts a, rd_seq ts a -> forall b, rd_seq ts b -> a = b) /\
    (forall ts a, rd_operand ts a -> forall b, rd_operand ts b -> a = b) /\ (forall ts a, rd_operands ts a -> forall b, Forall2 rd_operand (parts OR ts) b -> a = b) /\
    (forall ts a, rd_content ts a -> forall b, rd_content ts b -> a = b).
  Proof.
    apply (rd_item_mutind E C (fun ts a => forall b, rd_item ts b -> a = b) (fun ts a => forall b, rd_seq ts b -> a = b)
      (fun ts a => forall b, rd_operand ts b -> a = b) (fun ts a => forall b, Forall2 rd_operand (parts OR ts) b -> a = b) (fun ts a => forall b, rd_content ts b -> a = b)).
    - intros tr tq v fl mn mx Hr Hq b Hb. inversion Hb as [tr' tq' v' fl' mn' mx' Hr' Hq' He|l r tq' mn' mx' Hl Hr' Hq' He|l te r tq' n mn' mx' Hl Hn Hr' Hq' He|l tc r tq' n mn' mx' Hl Hn Hr' Hq' He]; subst;
        try (exfalso; destruct (regex_first _ _ _ Hr) as (k & x & -> & Hk); injection He as -> _; unfold is_tok in *; congruence).
      destruct (regex_split _ _ _ _ _ _ _ _ _ _ _ _ Hr' Hq' Hr Hq He) as [-> ->]. destruct (sp_regex_fun _ _ _ _ _ _ _ Hr Hr') as [-> ->]. destruct (quant_fun _ _ _ _ _ Hq Hq') as [-> ->]. reflexivity.
    - intros l r tq mn mx Hl Hr Hq b Hb. inversion Hb as [tr' tq' v' fl' mn' mx' Hr' Hq' He|l' r' tq' mn' mx' Hl' Hr' Hq' He|l' te r' tq' n mn' mx' Hl' Hn Hr' Hq' He|l' tc r' tq' n mn' mx' Hl' Hn Hr' Hq' He]; subst.
      + exfalso. destruct (regex_first _ _ _ Hr') as (k & x & -> & Hk). injection He as -> _. unfold is_tok in *; congruence.
      + destruct (quant_fun _ _ _ _ _ Hq Hq') as [-> ->]. reflexivity.
      + exfalso. destruct (bracket_split l te r' tq' l [] r tq) as (_ & -> & _); [cbn [app]; f_equal; assumption|eapply (proj1 (rd_clean E C)); exact Hn|reflexivity|rewrite Hr'; reflexivity|rewrite Hr; reflexivity|]. apply (proj1 (rd_sound E C)) in Hn. eapply (proj1 (expr_ne E C)); [exact Hn|reflexivity].
      + exfalso. unfold is_tok in *; congruence.
    - intros l te r tq n mn mx Hl Hn Hr Hq b Hb. inversion Hb as [tr' tq' v' fl' mn' mx' Hr' Hq' He|l' r' tq' mn' mx' Hl' Hr' Hq' He|l' te' r' tq' n' mn' mx' Hl' Hn' Hr' Hq' He|l' tc r' tq' n' mn' mx' Hl' Hn' Hr' Hq' He]; subst.
      + exfalso. destruct (regex_first _ _ _ Hr') as (k & x & -> & Hk). injection He as -> _. unfold is_tok in *; congruence.
      + exfalso. destruct (bracket_split l [] r' tq' l te r tq) as (_ & <- & _); [cbn; f_equal; assumption|reflexivity|eapply (proj1 (rd_clean E C)); exact Hn|rewrite Hr'; reflexivity|rewrite Hr; reflexivity|]. apply (proj1 (rd_sound E C)) in Hn. eapply (proj1 (expr_ne E C)); [exact Hn|reflexivity].
      + destruct (bracket_split l te' r' tq' l te r tq) as (_ & -> & -> & ->); [f_equal; assumption|eapply (proj1 (rd_clean E C)); exact Hn'|eapply (proj1 (rd_clean E C)); exact Hn|rewrite Hr'; reflexivity|rewrite Hr; reflexivity|].
        destruct (quant_fun _ _ _ _ _ Hq Hq') as [-> ->]. rewrite (proj1 (rd_unique E C) _ _ Hn _ Hn'). reflexivity.
      + exfalso. unfold is_tok in *; congruence.
    - intros l te r tq n mn mx Hl Hn IH Hr Hq b Hb. inversion Hb as [tr' tq' v' fl' mn' mx' Hr' Hq' He|l' r' tq' mn' mx' Hl' Hr' Hq' He|l' te' r' tq' n' mn' mx' Hl' Hn' Hr' Hq' He|l' tc r' tq' n' mn' mx' Hl' Hn' Hr' Hq' He]; subst;
        try (exfalso; unfold is_tok in *; congruence).
      + exfalso. destruct (regex_first _ _ _ Hr') as (k & x & -> & Hk). injection He as -> _. unfold is_tok in *; congruence.
      + destruct (bracket_split l tc r' tq' l te r tq) as (_ & -> & -> & ->); [f_equal; assumption|apply rd_item_sound in Hn'; eapply content_bal; exact Hn'|apply rd_item_sound in Hn; eapply content_bal; exact Hn|rewrite Hr'; reflexivity|rewrite Hr; reflexivity|].
        destruct (quant_fun _ _ _ _ _ Hq Hq') as [-> ->]. rewrite (IH _ Hn'). reflexivity.
    - intros ts n Hn IH b Hb. inversion Hb as [? m Hm|t m t' ms Hm Hms He]; subst; [rewrite (IH _ Hm); reflexivity|].
      exfalso. apply rd_item_sound in Hn, Hms. apply rd_item_sound in Hm. destruct (item_prefix t m (t ++ t') n t' [] Hm Hn (seq_starts _ _ Hms) I ltac:(rewrite app_nil_r; reflexivity)) as [_ ->].
      eapply (proj1 (proj2 (item_ne E C))); [exact Hms|reflexivity].
    - intros ts n ts' ns Hn IH Hs IH' b Hb. inversion Hb as [? m Hm|t m t' ms Hm Hms He]; subst.
      + exfalso. apply rd_item_sound in Hn, Hs. apply rd_item_sound in Hm. destruct (item_prefix ts n (ts ++ ts') m ts' [] Hn Hm (seq_starts _ _ Hs) I ltac:(rewrite app_nil_r; reflexivity)) as [_ ->].
        eapply (proj1 (proj2 (item_ne E C))); [exact Hs|reflexivity].
      + destruct (item_prefix t m ts n t' ts') as [-> ->]; [apply rd_item_sound; exact Hm|apply rd_item_sound; exact Hn|eapply seq_starts; apply rd_item_sound; exact Hms|eapply seq_starts; apply rd_item_sound; exact Hs|exact He|].
        rewrite (IH _ Hm), (IH' _ Hms). reflexivity.
    - intros ts n Hn IH Hc b Hb. inversion Hb as [? ? Hm|? ms Hm Hno]; subst; [auto|]. exfalso. inversion Hm as [? m Hm'|t m t' ms' Hm' Hms' He]; subst.
      + rewrite <- (IH _ Hm') in Hno. exact (Hno _ eq_refl Hc).
      + apply rd_item_sound in Hn, Hms'. apply rd_item_sound in Hm'. destruct (item_prefix t m (t ++ t') n t' [] Hm' Hn (seq_starts _ _ Hms') I ltac:(rewrite app_nil_r; reflexivity)) as [_ ->].
        eapply (proj1 (proj2 (item_ne E C))); [exact Hms'|reflexivity].
    - intros ts ns Hs IH Hno b Hb. inversion Hb as [? ? Hm Hc|? ms Hm Hno']; subst; [|rewrite (IH _ Hm); reflexivity].
      exfalso. rewrite (IH [b] ltac:(apply rq_one; exact Hm)) in Hno. exact (Hno _ eq_refl Hc).
    - intros ts n Hn IH b Hb. rewrite parts_one in Hb by (auto; apply tidy_clean; eapply operand_tidy; exact Hn). inversion Hb as [|? m ? ? H1 H2]; subst. inversion H2; subst. rewrite (IH _ H1). reflexivity.
    - intros ts n k ts' ns Hn IH Hk Hs IH' b Hb. rewrite parts_sep in Hb by (auto; apply tidy_clean; eapply operand_tidy; exact Hn). inversion Hb as [|? m ? ms H1 H2]; subst. rewrite (IH _ H1), (IH' _ H2). reflexivity.
    - intros ts ns Hs IH b Hb. inversion Hb as [? ms Hm|? ms Hm Hl]; subst; [rewrite (IH _ Hm); reflexivity|]. exfalso. apply rd_operands_parts in Hm. rewrite (seq_parts1 _ _ Hs) in Hm. apply Forall2_length in Hm. cbn in Hm. lia.
    - intros ts ns Hs IH Hl b Hb. inversion Hb as [? ms Hm|? ms Hm Hl']; subst; [|rewrite (IH _ (rd_operands_parts _ _ Hm)); reflexivity].
      exfalso. apply rd_operands_parts in Hs. rewrite (seq_parts1 _ _ Hm) in Hs. apply Forall2_length in Hs. cbn in Hs. lia.
  Qed.
  Lemma seq_length_item ts n ns : rd_item ts n -> rd_seq ts ns -> ns = [n].
  Proof. intros H Hs. symmetry. eapply (proj1 (proj2 rd_item_unique)); [apply rq_one; exact H|exact Hs]. Qed.
  Lemma rd_main_unique ts a b : rd_main ts a -> rd_main ts b -> a = b.
  Proof.
    assert (P : forall ts ns, rd_operands ts ns -> (2 <= List.length ns)%nat -> parts OR ts = [ts] -> False) by (intros t ns H Hl Hp; apply rd_operands_parts in H; rewrite Hp in H; apply Forall2_length in H; cbn in H; lia).
    assert (Q : forall t n, rd_item t n -> parts OR t = [t]) by (intros t n H; eapply seq_parts1; apply rq_one; exact H).
    intros Ha Hb. inversion Ha as [? ? Hi|? ns Hs Hl|? ns Ho Hl]; subst; inversion Hb as [? ? Hi'|? ns' Hs' Hl'|? ns' Ho' Hl']; subst;
      try (exfalso; eapply P; [eassumption|assumption|eauto using seq_parts1; fail]).
    - eapply (proj1 rd_item_unique); eassumption.
    - exfalso. rewrite (seq_length_item _ _ _ Hi Hs') in Hl'. cbn in Hl'. lia.
    - exfalso. rewrite (seq_length_item _ _ _ Hi' Hs) in Hl. cbn in Hl. lia.
    - rewrite (proj1 (proj2 rd_item_unique) _ _ Hs _ Hs'). reflexivity.
    - rewrite (proj1 (proj2 (proj2 (proj2 rd_item_unique))) _ _ Ho _ (rd_operands_parts _ _ Ho')). reflexivity.
  Qed.
  (** The last token of a query without within part is not a scope. *)
  Lemma seq_last ts ns : sp_seq ts ns -> exists a p, ts = a ++ [p] /\ In (t_type p) item_end.
  Proof.
    induction 1 as [ts n H|ts n ts' ns H Hs (a & p & -> & Hp)]; [eapply item_last; exact H|]. exists (ts ++ a), p. rewrite app_assoc. auto.
  Qed.
  Lemma alts_last ts ns : sp_alts E C ts ns -> exists a p, ts = a ++ [p] /\ In (t_type p) item_end.
  Proof.
    assert (G : forall t n, sp_operand E C t n -> exists a p, t = a ++ [p] /\ In (t_type p) item_end) by (intros t n H; inversion H; subst; [eapply item_last|eapply seq_last]; eassumption).
    induction 1 as [ts n H|ts n k ts' ns H Hk Hs (a & p & -> & Hp)]; [eapply G; exact H|]. exists (ts ++ k :: a), p. rewrite <- app_assoc. auto.
  Qed.
  Lemma main_last ts n : sp_main E C ts n -> exists a p, ts = a ++ [p] /\ In (t_type p) item_end.
  Proof. intros H. inversion H as [? ? Hi|? ? Hc]; subst; [eapply item_last; exact Hi|]. inversion Hc; subst; [eapply seq_last|eapply alts_last]; eassumption. Qed.
  Lemma main_no_within ts n ts' w k : sp_main E C ts n -> ts = ts' ++ [w; k] -> is_tok SIMPLE_WITHIN_SCOPE k -> False.
  Proof.
    intros H He Hk. destruct (main_last _ _ H) as (a & p & Ha & Hp). rewrite Ha in He. change [w; k] with ([w] ++ [k]) in He. rewrite app_assoc in He. apply app_inj_tail in He. destruct He as [_ ->].
    rewrite Hk in Hp. cbn in Hp. intuition discriminate.
  Qed.
  Lemma rd_query_unique ts a b : rd_query ts a -> rd_query ts b -> a = b.
  Proof.
    assert (X : forall (t t' : list token) w k e e', t ++ [e] = t' ++ [w; k; e'] -> t = t' ++ [w; k] /\ e = e').
    { intros t t' w k e e' He. change [w; k; e'] with ([w; k] ++ [e']) in He. rewrite app_assoc in He. apply app_inj_tail in He. exact He. }
    intros Ha Hb. inversion Ha as [t n e Hm He|t n w k sc e Hm Hw Hk Hsc He]; subst; inversion Hb as [t' n' e' Hm' He' Heq|t' n' w' k' sc' e' Hm' Hw' Hk' Hsc' He' Heq]; subst.
    - apply app_inj_tail in Heq. destruct Heq as [-> ->]. eapply rd_main_unique; eassumption.
    - symmetry in Heq. apply X in Heq. destruct Heq as [-> ->]. exfalso. eapply main_no_within; [apply rd_main_sound; exact Hm|reflexivity|exact Hk'].
    - apply X in Heq. destruct Heq as [-> ->]. exfalso. eapply main_no_within; [apply rd_main_sound; exact Hm'|reflexivity|exact Hk].
    - change [w'; k'; e'] with ([w'; k'] ++ [e']) in Heq. change [w; k; e] with ([w; k] ++ [e]) in Heq. rewrite !app_assoc in Heq. apply app_inj_tail in Heq. destruct Heq as [Heq ->].
      change [w'; k'] with ([w'] ++ [k']) in Heq. change [w; k] with ([w] ++ [k]) in Heq. rewrite !app_assoc in Heq. apply app_inj_tail in Heq. destruct Heq as [Heq ->]. apply app_inj_tail in Heq. destruct Heq as [-> ->].
      rewrite (rd_main_unique _ _ _ Hm Hm'), (scope_fun _ _ _ Hsc Hsc'). reflexivity.
  Qed.
End Query.
