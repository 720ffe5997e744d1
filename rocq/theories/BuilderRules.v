(** One lemma per grammar rule, and the induction over derivation trees. *)
From Coq Require Import String.
From Verif Require Import Base Regex LexRules Lexer Grammar Antlr Ast Builder LexSpec LitSpec LexThms
  GramSpec GramFacts ValueSpec ValueFacts SpellSpec BuilderFacts.
Local Open Scope Z_scope.

Section Rules.
  Variables (E : penv) (C : pcfg).
  Notation sem := (sem E C).
  Notation conds := (conds E).

  (** Visiting a literal with flags / an attribute pushes values. *)
  Definition opt_flags (fl : flags) : option flags := if flags_nonempty fl then Some fl else None.
  Definition sem_regexp (t : ptree) : Prop :=
    good_end (leaves t) /\
    ((exists v fl, sp_regex E C (leaves t) v (opt_flags fl) /\ conds (leaves t) /\
        forall H Nd nn sl b s (h : H), visit_tree (Nd := Nd) nn sl E (at_loc C b) t (s, h) = Ok (SFlags fl :: SStr v :: s, h))
     \/ (~ conds (leaves t) /\ fails E C t)).
  Definition sem_attribute (t : ptree) : Prop :=
    good_end (leaves t) /\ conds (leaves t) /\
    exists q i, sp_attr (leaves t) q i /\
      (forall qs, q = Some qs -> solid qs) /\
      forall H Nd nn sl b s (h : H), visit_tree (Nd := Nd) nn sl E (at_loc C b) t (s, h) =
        Ok (SStr (match q with Some x => x | None => [] end) :: SStr i :: s, h).

  Definition sp_core (ts : list token) (q : qnode) : Prop :=
    forall tq mn mx, quantified tq mn mx ->
      sp_item E C (ts ++ tq) (QN (PSegment mn mx) (span (ts ++ tq)) [q]).
  Definition sp_scope (ts : list token) (q : qnode) : Prop :=
    exists k sc, ts = [k] /\ is_tok SIMPLE_WITHIN_SCOPE k /\ scope_word (t_text k) sc /\
      q = QN (PSimpleWithin sc) (span ts) [].
  Definition sp_expr_of (c : class) (ts : list token) (q : qnode) : Prop :=
    sp_expr E C ts q /\ q_class q = c.

  Definition spec (r : rule) (t : ptree) : Prop :=
    match r with
    | query => sem (sp_query E C) t
    | main_query => sem (sp_main E C) t
    | query_disjunction =>
        sem (fun ts q => exists ns, q = QN PDisjunction (span ts) ns /\ sp_alts E C ts ns /\ (2 <= List.length ns)%nat) t
    | query_sequence => sem (fun ts q => exists ns, q = QN PSequence (span ts) ns /\ sp_seq E C ts ns) t
    | query_group | query_simple => sem (sp_item E C) t
    | quantifier => exists ts, t = Node quantifier (map Leaf ts) /\ quant_shape ts /\ Forall tok_ok ts
    | query_implicit | query_segment => sem sp_core t
    | within_part | within_part_simple => sem sp_scope t
    | expression => sem (sp_expr E C) t
    | expression_or => sem (sp_expr_of CExpressionOr) t
    | expression_and => sem (sp_expr_of CExpressionAnd) t
    | expression_group => sem (sp_expr_of CExpressionGroup) t
    | expression_not => sem (sp_expr_of CExpressionNot) t
    | expression_basic => sem (sp_expr_of CExpression) t
    | attribute => sem_attribute t
    | regexp => sem_regexp t
    | qualifier | identifier => exists k, t = Node r [Leaf k] /\ name_tok k /\ tok_ok k
    | regexp_pattern => exists k, t = Node r [Leaf k] /\ is_tok REGEXP k /\ tok_ok k
    | regexp_flag => exists k, t = Node r [Leaf k] /\ is_tok REGEXP_FLAGS k /\ tok_ok k
    end.
  Definition child_spec (t : ptree) : Prop :=
    match t with Leaf k => tok_ok k | Node r _ => spec r t end.

  Ltac kids := repeat match goal with
    | H : Forall child_spec (_ ++ _) |- _ => apply Forall_app in H; destruct H
    | H : Forall child_spec (_ :: _) |- _ => inversion H; clear H; subst
    | H : Forall child_spec [] |- _ => clear H
    end.
  Ltac nott := lazymatch goal with |- ~ _ => idtac | _ => red end; match goal with Hk : t_type ?k = _ |- ~ In (t_type ?k) _ => rewrite Hk; cbn; intuition discriminate
                             | Hk : is_tok _ ?k |- ~ In (t_type ?k) _ => rewrite Hk; cbn; intuition discriminate end.

  Lemma name_tok_in k : name_tok k -> ~ In (t_type k) [REGEXP; FWD_SLASH; INTEGER; Q_COMMA].
  Proof. unfold name_tok. cbn. intros H H'. destruct H as [H|[H|[H|[H|[]]]]]; rewrite <- H in H'; intuition discriminate. Qed.

  (** Trivial rules. *)
  Lemma rule_name r ch : r = qualifier \/ r = identifier -> derives (body r) ch -> Forall child_spec ch -> spec r (Node r ch).
  Proof.
    intros Hr Hd Hk. destruct Hr as [-> | ->]; cbn [body] in Hd; inversion Hd; subst; kids; cbn [spec];
      eexists; split; eauto.
  Qed.
  Lemma rule_pattern ch : derives (body regexp_pattern) ch -> Forall child_spec ch -> spec regexp_pattern (Node regexp_pattern ch).
  Proof.
    intros Hd Hk. cbn [body] in Hd; inversion Hd; subst; kids; in1. eexists; split; [reflexivity|]. split; assumption.
  Qed.
  Lemma rule_flag ch : derives (body regexp_flag) ch -> Forall child_spec ch -> spec regexp_flag (Node regexp_flag ch).
  Proof.
    intros Hd Hk. cbn [body] in Hd; inversion Hd; subst; kids; in1. eexists; split; [reflexivity|]. split; assumption.
  Qed.
  Lemma rule_quantifier ch : derives (body quantifier) ch -> Forall child_spec ch -> spec quantifier (Node quantifier ch).
  Proof.
    intros Hd Hk. destruct (quantifier_shape ch Hd) as (ts & -> & Hs). exists ts. split; [reflexivity|]. split; [exact Hs|].
    exact (proj1 (Forall_map Leaf child_spec ts) Hk).
  Qed.

  (** Literals. *)
  Lemma no_flags_opt : opt_flags no_flags = None. Proof. reflexivity. Qed.
  Lemma flags_nonempty_in S f : flag_in f S = true -> flags_nonempty S = true.
  Proof. destruct S as [[] [] [] []], f; cbn; intros H; first [discriminate|reflexivity]. Qed.
  Lemma flag_char_meaning c : is_flag_char c -> exists f, flag_meaning c = Some f.
  Proof.
    unfold is_flag_char. cbn. intros H. repeat (destruct H as [<-|H]; [eexists; reflexivity|]). destruct H.
  Qed.

  Lemma rule_regexp ch : derives (body regexp) ch -> Forall child_spec ch -> spec regexp (Node regexp ch).
  Proof.
    intros Hd Hk. cbn [body] in Hd. inv_derives; in1; kids; cbn [spec child_spec] in *.
    - (* no flags *)
      match goal with H : exists k, _ |- _ => destruct H as (k & Heq & Hty & Htk) end. injection Heq as ->.
      assert (Hl : is_literal (t_text k)).
      { destruct Htk as [Ht _]. rewrite Hty in Ht. apply Ht. discriminate. }
      split; [cbn; apply good_end_one; nott|]. cbn [leaves flat_map app].
      destruct (regexp_value_spec E C (t_text k) Hl) as [(v & Hv & Hr)|(Hno & e & Hr)].
      + left. exists (normalised E C v), no_flags. split; [constructor; assumption|]. split.
        * split; [|exact I]. split; [intros _; exists v; exact Hv|]. split; [intros H; rewrite Hty in H; discriminate|].
          split; intros H; rewrite Hty in H; discriminate.
        * intros H Nd nn sl b s h. rewrite visit_node. cbn [visit_rule visitRegexp find_rule find rule_eqb rule_eq_dec rule_rec rule_rect app].
          unfold visitRegexp. cbn. unfold get_text. cbn. rewrite app_nil_r.
          change (regexp_value E (at_loc C b) (t_text k)) with (regexp_value E C (t_text k)). rewrite Hr. reflexivity.
      + right. split; [intros [(H & _) _]; apply Hno; apply H; exact Hty|].
        exists e. intros H Nd nn sl b s h. rewrite visit_node. cbn. unfold visitRegexp. cbn. unfold get_text. cbn. rewrite app_nil_r.
        change (regexp_value E (at_loc C b) (t_text k)) with (regexp_value E C (t_text k)). rewrite Hr. reflexivity.
    - repeat match goal with H : exists k, _ |- _ => let k := fresh "k" in let Heq := fresh "Heq" in let Hty := fresh "Hty" in let Htk := fresh "Htk" in
        destruct H as (k & Heq & Hty & Htk); injection Heq as -> end.
      assert (Hl : is_literal (t_text k0)).
      { destruct Htk as [Hx _]. rewrite Hty in Hx. apply Hx. discriminate. }
      assert (Hfl : t_text k1 <> [] /\ Forall is_flag_char (t_text k1)).
      { destruct Htk0 as [Hx _]. rewrite Hty0 in Hx. apply Hx. discriminate. }
      split; [cbn; apply good_end_cons, good_end_cons, good_end_one; nott|]. cbn [leaves flat_map app].
      assert (Hconds : conds [k0; t; k1] <-> decodable (t_text k0) /\ flags_ok (t_text k1)).
      { unfold is_tok in *. cbn [BuilderFacts.conds]. unfold cond1. rewrite Hty, Ht, Hty0. split.
        - intros ((Ha & _) & (_ & Hb & _) & _). split; [auto|]. eapply Hb; eauto.
        - intros (Ha & Hb). repeat split; try discriminate; auto.
          intros _ f r' Heq _. injection Heq as <- <-. exact Hb. }
      destruct (regexp_value_spec E C (t_text k0) Hl) as [(v & Hv & Hr)|(Hno & e & Hr)].
      + destruct (regexp_flags_spec (t_text k1) (proj2 Hfl)) as [(S & HS & Hcons & HrS)|(Hno & e & HrS)].
        * left. exists (normalised E C v), S. split; [|split].
          { replace (opt_flags S) with (Some S); [constructor; assumption|].
            unfold opt_flags. destruct Hfl as [Hne HF]. destruct (t_text k1) as [|c w]; [contradiction|].
            inversion HF; subst. destruct (flag_char_meaning c) as (f & Hf); [assumption|].
            rewrite (flags_nonempty_in S f); [reflexivity|]. apply HS. exists c. split; [left; reflexivity|exact Hf]. }
          { apply Hconds. split; [exists v; exact Hv|exists S; auto]. }
          intros H Nd nn sl b s h. rewrite visit_node. cbn. unfold visitRegexp. cbn. unfold get_text. cbn. rewrite !app_nil_r.
          change (regexp_value E (at_loc C b) (t_text k0)) with (regexp_value E C (t_text k0)). rewrite Hr. cbn. rewrite HrS. reflexivity.
        * right. split; [rewrite Hconds; tauto|]. exists e. intros H Nd nn sl b s h. rewrite visit_node. cbn. unfold visitRegexp. cbn. unfold get_text. cbn. rewrite !app_nil_r.
          change (regexp_value E (at_loc C b) (t_text k0)) with (regexp_value E C (t_text k0)). rewrite Hr. cbn. rewrite HrS. reflexivity.
      + right. split; [rewrite Hconds; tauto|]. exists e. intros H Nd nn sl b s h. rewrite visit_node. cbn. unfold visitRegexp. cbn. unfold get_text. cbn. rewrite !app_nil_r.
        change (regexp_value E (at_loc C b) (t_text k0)) with (regexp_value E C (t_text k0)). rewrite Hr. reflexivity.
  Qed.

  (** Attributes and basic expressions. *)
  Lemma rule_attribute ch : derives (body attribute) ch -> Forall child_spec ch -> spec attribute (Node attribute ch).
  Proof.
    intros Hd Hk. cbn [body] in Hd. inv_derives; in1; kids; cbn [spec child_spec] in *;
      repeat match goal with H : exists k, _ |- _ => let k := fresh "k" in let Heq := fresh "Heq" in let Hty := fresh "Hty" in let Htk := fresh "Htk" in
        destruct H as (k & Heq & Hty & Htk); injection Heq as -> end; unfold sem_attribute; cbn [leaves flat_map app].
    - match goal with |- good_end [?q] /\ _ => rename q into k end.
      assert (Hn := name_tok_in _ Hty). split; [apply good_end_one; cbn in *; tauto|]. split; [apply conds_one; exact Hn|].
      exists None, (t_text k). split; [constructor; exact Hty|]. split; [discriminate|].
      intros H Nd nn sl b s h. rewrite visit_node. cbn. unfold visitAttribute. cbn. unfold get_text. cbn. rewrite !app_nil_r. reflexivity.
    - match goal with |- good_end [?q; ?c; ?i] /\ _ => rename q into Q; rename i into J end.
      assert (HQ : name_tok Q) by assumption. assert (HJ : name_tok J) by assumption.
      assert (Hq := name_tok_in _ HQ). assert (Hi := name_tok_in _ HJ).
      split; [apply good_end_cons, good_end_cons, good_end_one; intros Hx; apply Hi; right; exact Hx|]. split.
      { rewrite conds_cons by exact Hq. rewrite conds_cons by nott. apply conds_one. exact Hi. }
      exists (Some (t_text Q)), (t_text J). split; [constructor; assumption|]. split.
      { intros qs Hqs. injection Hqs as <-. match goal with H : tok_ok Q |- _ => apply H end. exact HQ. }
      intros H Nd nn sl b s h. rewrite visit_node. cbn. unfold visitAttribute. cbn. unfold get_text. cbn. rewrite !app_nil_r. reflexivity.
  Qed.

  Lemma finish_spec H Nd nn sl b t fl v qual i o s (h : H) :
    (forall qs, qual = Some qs -> solid qs) ->
    finish_expression (Nd := Nd) nn sl (at_loc C b) t
      (SFlags fl :: SStr v :: SStr (match qual with Some x => x | None => [] end) :: SStr i :: SOp o :: s, h) =
    let (h', n) := alloc nn sl b (QN (PExpr qual i o v (opt_flags fl)) (fromContext t) []) h in Ok (SNode n :: s, h').
  Proof.
    intros Hq. unfold finish_expression. cbn [rbind pop_flags pop_str pop_op pop fst snd]. rewrite build_alloc.
    replace (mk_expression (Some match qual with Some x => x | None => [] end) i o v (Some fl)) with (PExpr qual i o v (opt_flags fl)).
    - cbn [alloc]. destruct (alloc1 nn sl b (PExpr qual i o v (opt_flags fl)) (fromContext t) (h, [])). reflexivity.
    - unfold mk_expression, opt_flags. f_equal. destruct qual as [qs|]; [|reflexivity].
      destruct (Hq qs eq_refl) as [Hne Hs]. destruct qs; [contradiction|]. rewrite Hs. reflexivity.
  Qed.

  Lemma rule_basic ch : derives (body expression_basic) ch -> Forall child_spec ch -> spec expression_basic (Node expression_basic ch).
  Proof.
    intros Hd Hk. assert (Hloc := rule_span expression_basic ch ltac:(discriminate) Hd).
    cbn [body] in Hd. inv_derives; kids; cbn [spec child_spec] in *.
    match goal with H : sem_attribute (Node attribute ?x) |- _ => rename x into ca; destruct H as (Hg & Hca & qual & i & Hsp & Hsol & Hva) end.
    match goal with H : sem_regexp (Node regexp ?x) |- _ => rename x into cr; destruct H as (Hg' & Hr) end.
    match goal with |- context [Leaf ?x] => rename x into o end.
    assert (Ho : exists op, sp_op o op /\ forall H Nd nn sl b s, visit_tree nn sl E (at_loc C b)
         (Node expression_basic ([Node attribute ca] ++ [Leaf o] ++ [Node regexp cr])) s =
        rbind (visit_ch (H := H) (Nd := Nd) nn sl E (at_loc C b) [Node attribute ca; Leaf o; Node regexp cr] (push (SOp op) s))
          (finish_expression nn sl (at_loc C b) (Node expression_basic ([Node attribute ca] ++ [Leaf o] ++ [Node regexp cr])))).
    { match goal with H : In (t_type o) _ |- _ => destruct H as [H|[H|[]]] end.
      - exists EQUALS. split; [constructor; unfold is_tok; congruence|]. intros. rewrite visit_node. cbn [visit_rule]. unfold visitExpression_basic.
        cbn [app has_token find_token find]. unfold has_token, find_token. cbn [find]. unfold ttype_eqb at 1.
        match goal with Hx : OPERATOR_EQ = t_type o |- _ => rewrite <- Hx end. reflexivity.
      - exists NOT_EQUALS. split; [constructor; unfold is_tok; congruence|]. intros. rewrite visit_node. cbn [visit_rule]. unfold visitExpression_basic.
        cbn [app has_token find_token find]. unfold has_token, find_token. cbn [find]. unfold ttype_eqb.
        match goal with Hx : OPERATOR_NE = t_type o |- _ => rewrite <- Hx end. reflexivity. }
    destruct Ho as (op & Hop & Hvis).
    assert (Hot : ~ In (t_type o) [REGEXP; FWD_SLASH; INTEGER; Q_COMMA]).
    { inversion Hop as [? Hx|? Hx]; subst; rewrite Hx; cbn; intuition discriminate. }
    assert (Hlv : leaves (Node expression_basic ([Node attribute ca] ++ [Leaf o] ++ [Node regexp cr])) =
                  leaves (Node attribute ca) ++ o :: leaves (Node regexp cr)).
    { cbn. rewrite !app_nil_r. reflexivity. }
    assert (Hcd : conds (leaves (Node attribute ca) ++ o :: leaves (Node regexp cr)) <-> conds (leaves (Node regexp cr))).
    { rewrite conds_app by exact Hg. rewrite conds_cons by exact Hot. tauto. }
    unfold BuilderFacts.sem. rewrite Hlv in *. split; [apply good_end_app, good_end_cons; exact Hg'|].
    destruct Hr as [(v & fl & Hsr & Hc & Hv)|(Hc & e & He)].
    - left. exists (QN (PExpr qual i op v (opt_flags fl)) (span (leaves (Node attribute ca) ++ o :: leaves (Node regexp cr))) []).
      split; [split; [constructor; assumption|reflexivity]|]. split; [apply Hcd; exact Hc|].
      intros H Nd nn sl b s h. rewrite Hvis. cbn [visit_ch]; unfold push; cbn [fst snd]. rewrite Hva. cbn [rbind]; rewrite visit_leaf; cbn [rbind].
      rewrite Hv. cbn [rbind]. rewrite finish_spec by exact Hsol. rewrite Hloc. reflexivity.
    - right. split; [rewrite Hcd; exact Hc|]. exists e. intros H Nd nn sl b s h. rewrite Hvis. cbn [visit_ch]; unfold push; cbn [fst snd]. rewrite Hva. cbn [rbind]; rewrite visit_leaf; cbn [rbind].
      rewrite He. reflexivity.
  Qed.

  (** *** Lists of operands *)
  Inductive sepby (P : list token -> qnode -> Prop) (sep : ttype) : list token -> list qnode -> Prop :=
  | sb_one ts n : P ts n -> sepby P sep ts [n]
  | sb_more ts n k ts' ns : P ts n -> is_tok sep k -> sepby P sep ts' ns -> sepby P sep (ts ++ k :: ts') (n :: ns).
  Inductive juxt (P : list token -> qnode -> Prop) : list token -> list qnode -> Prop :=
  | jx_one ts n : P ts n -> juxt P ts [n]
  | jx_more ts n ts' ns : P ts n -> juxt P ts' ns -> juxt P (ts ++ ts') (n :: ns).
  Definition sem_ch (P : list token -> list qnode -> Prop) (l : list ptree) : Prop :=
    good_end (flat_map leaves l) /\
    ((exists qs, P (flat_map leaves l) qs /\ conds (flat_map leaves l) /\ yields_ch E C l qs) \/
     (~ conds (flat_map leaves l) /\ fails_ch E C l)).

  Definition plain (ty : ttype) : Prop := ~ In ty [REGEXP; FWD_SLASH; INTEGER; Q_COMMA].
  Lemma sem_ch_one (P : list token -> qnode -> Prop) (Q : list token -> list qnode -> Prop) t :
    (forall ts q, P ts q -> Q ts [q]) -> sem P t -> sem_ch Q [t].
  Proof.
    intros HPQ [Hg Hs]. unfold sem_ch. cbn [flat_map]. rewrite app_nil_r. split; [exact Hg|].
    destruct Hs as [(q & Hq & Hc & Hy)|(Hc & Hf)].
    - left. exists [q]. split; [auto|]. split; [exact Hc|]. apply yields_ch_cons; [exact Hy|apply yields_ch_nil].
    - right. split; [exact Hc|]. apply fails_ch_here. exact Hf.
  Qed.
  Lemma sem_ch_sep (P : list token -> qnode -> Prop) (Q R : list token -> list qnode -> Prop) t k l :
    (forall ts q ts' qs, P ts q -> Q ts' qs -> R (ts ++ k :: ts') (q :: qs)) -> plain (t_type k) ->
    sem P t -> sem_ch Q l -> sem_ch R (t :: Leaf k :: l).
  Proof.
    intros HPQ Hk [Hg Hs] [Hg' Hs']. unfold sem_ch. cbn [flat_map leaves app].
    split; [apply good_end_app, good_end_cons; exact Hg'|].
    assert (Hcd : conds (leaves t ++ k :: flat_map leaves l) <-> conds (leaves t) /\ conds (flat_map leaves l)).
    { rewrite conds_app by exact Hg. rewrite conds_cons by exact Hk. tauto. }
    destruct Hs as [(q & Hq & Hc & Hy)|(Hc & Hf)].
    - destruct Hs' as [(qs & Hqs & Hc' & Hy')|(Hc' & Hf')].
      + left. exists (q :: qs). split; [auto|]. split; [apply Hcd; auto|].
        apply yields_ch_cons; [exact Hy|]. apply yields_ch_leaf. exact Hy'.
      + right. split; [rewrite Hcd; tauto|]. eapply fails_ch_later; [exact Hy|]. apply fails_ch_leaf. exact Hf'.
    - right. split; [rewrite Hcd; tauto|]. apply fails_ch_here. exact Hf.
  Qed.
  Lemma sem_ch_juxt (P : list token -> qnode -> Prop) (Q R : list token -> list qnode -> Prop) t l :
    (forall ts q ts' qs, P ts q -> Q ts' qs -> R (ts ++ ts') (q :: qs)) ->
    sem P t -> sem_ch Q l -> sem_ch R (t :: l).
  Proof.
    intros HPQ [Hg Hs] [Hg' Hs']. unfold sem_ch. cbn [flat_map].
    split; [apply good_end_app; exact Hg'|].
    assert (Hcd : conds (leaves t ++ flat_map leaves l) <-> conds (leaves t) /\ conds (flat_map leaves l)).
    { rewrite conds_app by exact Hg. tauto. }
    destruct Hs as [(q & Hq & Hc & Hy)|(Hc & Hf)].
    - destruct Hs' as [(qs & Hqs & Hc' & Hy')|(Hc' & Hf')].
      + left. exists (q :: qs). split; [auto|]. split; [apply Hcd; auto|].
        apply yields_ch_cons; [exact Hy|]. exact Hy'.
      + right. split; [rewrite Hcd; tauto|]. eapply fails_ch_later; [exact Hy|]. exact Hf'.
    - right. split; [rewrite Hcd; tauto|]. apply fails_ch_here. exact Hf.
  Qed.
  Lemma sem_ch_impl (P Q : list token -> list qnode -> Prop) l : (forall ts q, P ts q -> Q ts q) -> sem_ch P l -> sem_ch Q l.
  Proof. intros H [Hg [(q & Hq & Hr)|Hr]]; (split; [exact Hg|]); [left; exists q; split; auto|right; exact Hr]. Qed.
  (** Enclosing tokens. *)
  Lemma sem_ch_pre (P Q : list token -> list qnode -> Prop) k l :
    (forall ts qs, P ts qs -> Q (k :: ts) qs) -> plain (t_type k) -> sem_ch P l -> sem_ch Q (Leaf k :: l).
  Proof.
    intros HPQ Hk [Hg Hs]. unfold sem_ch. cbn [flat_map leaves app]. split; [apply good_end_cons; exact Hg|].
    rewrite (conds_cons E k) by exact Hk. destruct Hs as [(qs & Hq & Hc & Hy)|(Hc & Hf)].
    - left. exists qs. rewrite (conds_cons E k) by exact Hk. split; [auto|]. split; [exact Hc|]. apply yields_ch_leaf. exact Hy.
    - right. split; [exact Hc|]. apply fails_ch_leaf. exact Hf.
  Qed.
  Lemma yields_ch_app l1 l2 q1 q2 : yields_ch E C l1 q1 -> yields_ch E C l2 q2 -> yields_ch E C (l1 ++ l2) (q1 ++ q2).
  Proof.
    intros H1 H2 H Nd nn sl b s h. rewrite visit_ch_app, H1, alloc_list_app.
    destruct (alloc_list nn sl b q1 h) as [h1 n1]. cbn [rbind]. rewrite H2.
    destruct (alloc_list nn sl b q2 h1) as [h2 n2]. rewrite rev_app_distr, map_app, app_assoc. reflexivity.
  Qed.
  Lemma fails_ch_app l1 l2 : fails_ch E C l1 -> fails_ch E C (l1 ++ l2).
  Proof. intros (e & He). exists e. intros H Nd nn sl b s h. rewrite visit_ch_app, He. reflexivity. Qed.
  Lemma sem_ch_post (P Q : list token -> list qnode -> Prop) k l :
    (forall ts qs, P ts qs -> Q (ts ++ [k]) qs) -> plain (t_type k) -> sem_ch P l -> sem_ch Q (l ++ [Leaf k]).
  Proof.
    intros HPQ Hk [Hg Hs]. unfold sem_ch. rewrite flat_map_app. cbn [flat_map leaves app].
    split; [apply good_end_app, good_end_one; unfold plain in Hk; cbn in *; tauto|].
    destruct Hs as [(qs & Hq & Hc & Hy)|(Hc & Hf)].
    - left. exists qs. split; [auto|]. split; [apply conds_snoc; assumption|].
      rewrite <- (app_nil_r qs). apply yields_ch_app; [exact Hy|]. apply yields_ch_leaf, yields_ch_nil.
    - right. split; [rewrite conds_snoc; assumption|]. apply fails_ch_app. exact Hf.
  Qed.

  Lemma sep_sem e sep P fs : plain sep ->
    (forall x, derives e x -> Forall child_spec x -> exists t, x = [t] /\ sem P t) ->
    derives (St (Sq (Tk [sep]) e)) fs -> Forall child_spec fs ->
    fs = [] \/ exists k l, fs = Leaf k :: l /\ t_type k = sep /\ sem_ch (sepby P sep) l.
  Proof.
    intros Hsep He Hd. remember (St (Sq (Tk [sep]) e)) as e0 eqn:He0.
    induction Hd as [| | | | | | | |e1|e1 x y Hx _ Hy IH]; try discriminate He0; intros Hk; [left; reflexivity|].
    right. injection He0 as ->. inversion Hx as [| |? ? x1 x2 H1 H2| | | | | | |]; subst. inversion H1; subst. in1.
    apply Forall_app in Hk. destruct Hk as [Hk1 Hk2]. apply Forall_app in Hk1. destruct Hk1 as [_ Hk1].
    destruct (He x2 H2 Hk1) as (tr & -> & Htr). specialize (IH eq_refl Hk2).
    exists t. destruct IH as [-> | (k' & l' & -> & Hk' & Hl')].
    - exists [tr]. split; [reflexivity|]. split; [assumption|]. eapply sem_ch_one; [|exact Htr]. intros; constructor; assumption.
    - exists (tr :: Leaf k' :: l'). split; [reflexivity|]. split; [assumption|].
      eapply sem_ch_sep; [|rewrite Hk'; exact Hsep|exact Htr|exact Hl'].
      intros. apply sb_more; assumption.
  Qed.
  Lemma pl_sep_sem e sep P fs : plain sep ->
    (forall x, derives e x -> Forall child_spec x -> exists t, x = [t] /\ sem P t) ->
    derives (Pl (Sq (Tk [sep]) e)) fs -> Forall child_spec fs ->
    exists k l, fs = Leaf k :: l /\ t_type k = sep /\ sem_ch (sepby P sep) l.
  Proof.
    intros Hsep He Hd Hk. inversion Hd as [| | | | | | |? x y Hx Hy| |]; subst.
    destruct (sep_sem e sep P (x ++ y) Hsep He) as [H|H]; [constructor; assumption|assumption| |exact H].
    inversion Hx as [| |? ? x1 x2 H1 H2| | | | | | |]; subst. inversion H1; subst. discriminate H.
  Qed.
  Lemma pl_juxt_sem e P fs :
    (forall x, derives e x -> Forall child_spec x -> exists t, x = [t] /\ sem P t) ->
    derives (Pl e) fs -> Forall child_spec fs -> sem_ch (juxt P) fs.
  Proof.
    intros He Hd Hk. inversion Hd as [| | | | | | |? x y Hx Hy| |]; subst. clear Hd. revert x Hx Hk.
    remember (St e) as e0 eqn:He0.
    induction Hy as [| | | | | | | |e1|e1 x' y' Hx' _ Hy' IH]; try discriminate He0; intros x Hx Hk; injection He0 as ->.
    - rewrite app_nil_r in *. destruct (He x Hx Hk) as (t & -> & Ht). eapply sem_ch_one; [|exact Ht]. intros; constructor; assumption.
    - apply Forall_app in Hk. destruct Hk as [Hk1 Hk2]. destruct (He x Hx Hk1) as (t & -> & Ht).
      eapply sem_ch_juxt; [|exact Ht|apply (IH eq_refl x' Hx' Hk2)]. intros; apply jx_more; assumption.
  Qed.

  (** *** Expression rules *)
  Ltac alt1 := intros; inv_derives; kids; cbn [spec child_spec] in *; eexists; (split; [reflexivity|]);
    match goal with H : sem (sp_expr_of _) _ |- _ => revert H end;
    apply sem_impl; unfold sp_expr_of, q_class; intros ts q [Hq Hcl]; repeat split; try assumption;
    intros Hp; rewrite Hp in Hcl; discriminate.
  Notation eb := (NT expression_basic). Notation eg := (NT expression_group). Notation eo := (NT expression_or).
  Notation ea := (NT expression_and). Notation en := (NT expression_not).
  Lemma alt_or x : derives (Al eb (Al eg (Al ea en))) x -> Forall child_spec x ->
    exists t, x = [t] /\ sem (fun ts q => sp_expr E C ts q /\ q_payload q <> POr) t.
  Proof. alt1. Qed.
  Lemma alt_and x : derives (Al eb (Al eg (Al eo en))) x -> Forall child_spec x ->
    exists t, x = [t] /\ sem (fun ts q => sp_expr E C ts q /\ q_payload q <> PAnd) t.
  Proof. alt1. Qed.
  Lemma alt_and1 x : derives (Al eb (Al eg en)) x -> Forall child_spec x ->
    exists t, x = [t] /\ sem (fun ts q => sp_expr E C ts q /\ q_payload q <> PAnd /\ q_payload q <> POr) t.
  Proof. alt1. Qed.
  Lemma alt_all x : derives (Al eb (Al eg (Al eo (Al ea en)))) x -> Forall child_spec x ->
    exists t, x = [t] /\ sem (sp_expr E C) t.
  Proof. alt1. Qed.
  Lemma alt_not x : derives (Al eb (Al eg (Al en (Al eo ea)))) x -> Forall child_spec x ->
    exists t, x = [t] /\ sem (sp_expr E C) t.
  Proof. alt1. Qed.

  Lemma sepby_exprs (P : qnode -> Prop) sep ts ns : sepby (fun ts q => sp_expr E C ts q /\ P q) sep ts ns ->
    sp_exprs E C sep ts ns /\ (forall n, In n ns -> P n) /\ (1 <= List.length ns)%nat.
  Proof.
    induction 1 as [ts n [Hn HP]|ts n k ts' ns [Hn HP] Hk _ (IH1 & IH2 & IH3)].
    - split; [constructor; exact Hn|]. split; [intros m [<-|[]]; exact HP|]. cbn. lia.
    - split; [constructor; assumption|]. split; [intros m [<-|Hm]; auto|]. cbn. lia.
  Qed.

  Lemma list_rule r nm p Q ch :
    r <> query -> derives (body r) ch ->
    (forall H Nd nn sl b (s : st (H := H) (Nd := Nd)), visit_tree nn sl E (at_loc C b) (Node r ch) s =
       visit_list nn sl (at_loc C b) nm p (Node r ch) (visit_ch nn sl E (at_loc C b) ch) s) ->
    sem_ch Q ch -> (forall ts qs, Q ts qs -> qs <> []) ->
    sem (fun ts q => exists ns, q = QN p (span ts) ns /\ Q ts ns) (Node r ch).
  Proof.
    intros Hr Hd Hv [Hg Hs] Hne. split; [exact Hg|]. destruct Hs as [(qs & Hq & Hc & Hy)|(Hc & Hf)].
    - left. exists (QN p (span (leaves (Node r ch))) qs). split; [exists qs; auto|]. split; [exact Hc|].
      eapply list_yields; [exact Hv|apply rule_span; assumption|eauto|exact Hy].
    - right. split; [exact Hc|]. eapply list_fails; [exact Hv|exact Hf].
  Qed.
  Lemma unary_rule r p Q ch :
    r <> query -> derives (body r) ch ->
    (forall H Nd nn sl b (s : st (H := H) (Nd := Nd)), visit_tree nn sl E (at_loc C b) (Node r ch) s =
       visit_unary nn sl (at_loc C b) p (Node r ch) (visit_ch nn sl E (at_loc C b) ch) s) ->
    sem_ch (fun ts qs => exists q, qs = [q] /\ Q ts q) ch ->
    sem (fun ts q => exists n, q = QN p (span ts) [n] /\ Q ts n) (Node r ch).
  Proof.
    intros Hr Hd Hv [Hg Hs]. split; [exact Hg|]. destruct Hs as [(qs & (q & -> & Hq) & Hc & Hy)|(Hc & Hf)].
    - left. exists (QN p (span (leaves (Node r ch))) [q]). split; [exists q; auto|]. split; [exact Hc|].
      eapply unary_yields; [exact Hv|apply rule_span; assumption|exact Hy].
    - right. split; [exact Hc|]. eapply unary_fails; [exact Hv|exact Hf].
  Qed.
  Lemma pass_rule r Q ch :
    (forall H Nd nn sl b (s : st (H := H) (Nd := Nd)), visit_tree nn sl E (at_loc C b) (Node r ch) s =
       visit_ch nn sl E (at_loc C b) ch s) ->
    sem_ch (fun ts qs => exists q, qs = [q] /\ Q ts q) ch -> sem Q (Node r ch).
  Proof.
    intros Hv [Hg Hs]. split; [exact Hg|]. destruct Hs as [(qs & (q & -> & Hq) & Hc & Hy)|(Hc & Hf)].
    - left. exists q. split; [exact Hq|]. split; [exact Hc|]. eapply pass_yields; [exact Hv|exact Hy].
    - right. split; [exact Hc|]. eapply pass_fails; [exact Hv|exact Hf].
  Qed.

  Lemma rule_or ch : derives (body expression_or) ch -> Forall child_spec ch -> spec expression_or (Node expression_or ch).
  Proof.
    intros Hd Hk. assert (Hd0 := Hd). cbn [body] in Hd. inversion Hd as [| |? ? x1 x2 H1 H2| | | | | | |]; subst; clear Hd.
    apply Forall_app in Hk. destruct Hk as [Hk1 Hk2]. destruct (alt_or x1 H1 Hk1) as (t & -> & Ht).
    destruct (pl_sep_sem _ OR _ _ ltac:(cbv; intuition discriminate) alt_or H2 Hk2) as (k & l & -> & Hkt & Hl). cbn [app] in *.
    assert (Hs : sem_ch (fun ts qs => sp_exprs E C OR ts qs /\ (2 <= List.length qs)%nat /\ forall n, In n qs -> q_payload n <> POr)
      (t :: Leaf k :: l)).
    { eapply sem_ch_sep; [|rewrite Hkt; cbv; intuition discriminate|exact Ht|exact Hl].
      cbn beta. intros ts q ts' qs [Hq Hp] Hsep. destruct (sepby_exprs (fun q => q_payload q <> POr) OR _ _ Hsep) as (A & B & D).
      split; [constructor; assumption|]. split; [cbn; lia|]. intros n [<-|Hn]; auto. }
    cbn [spec]. eapply sem_impl; [|eapply (list_rule expression_or (u "visitExpression_or") POr); [discriminate|exact Hd0|reflexivity|exact Hs|]].
    - intros ts q (ns & -> & A & B & D). split; [constructor; assumption|reflexivity].
    - intros ts qs (_ & Hlen & _) ->. cbn in Hlen. lia.
  Qed.
  Lemma rule_and ch : derives (body expression_and) ch -> Forall child_spec ch -> spec expression_and (Node expression_and ch).
  Proof.
    intros Hd Hk. assert (Hd0 := Hd). cbn [body] in Hd. inversion Hd as [| |? ? x1 x2 H1 H2| | | | | | |]; subst; clear Hd.
    apply Forall_app in Hk. destruct Hk as [Hk1 Hk2]. destruct (alt_and1 x1 H1 Hk1) as (t & -> & Ht).
    destruct (pl_sep_sem _ AND _ _ ltac:(cbv; intuition discriminate) alt_and H2 Hk2) as (k & l & -> & Hkt & Hl). cbn [app] in *.
    assert (Hs : sem_ch (fun ts qs => sp_exprs E C AND ts qs /\ (2 <= List.length qs)%nat /\ (forall n, In n qs -> q_payload n <> PAnd) /\
        (forall n, hd_error qs = Some n -> q_payload n <> POr)) (t :: Leaf k :: l)).
    { eapply sem_ch_sep; [|rewrite Hkt; cbv; intuition discriminate|exact Ht|exact Hl].
      cbn beta. intros ts q ts' qs (Hq & Hp & Hp') Hsep. destruct (sepby_exprs (fun q => q_payload q <> PAnd) AND _ _ Hsep) as (A & B & D).
      split; [constructor; assumption|]. split; [cbn; lia|]. split; [intros n [<-|Hn]; auto|].
      cbn. intros n Hn. injection Hn as <-. exact Hp'. }
    cbn [spec]. eapply sem_impl; [|eapply (list_rule expression_and (u "visitExpression_and") PAnd); [discriminate|exact Hd0|reflexivity|exact Hs|]].
    - intros ts q (ns & -> & A & B & D & F). split; [constructor; assumption|reflexivity].
    - intros ts qs (_ & Hlen & _) ->. cbn in Hlen. lia.
  Qed.
  Lemma rule_not ch : derives (body expression_not) ch -> Forall child_spec ch -> spec expression_not (Node expression_not ch).
  Proof.
    intros Hd Hk. assert (Hd0 := Hd). cbn [body] in Hd. inversion Hd as [| |? ? x1 x2 H1 H2| | | | | | |]; subst; clear Hd.
    apply Forall_app in Hk. destruct Hk as [Hk1 Hk2]. inversion H1; subst. in1.
    destruct (alt_not x2 H2 Hk2) as (tr & -> & Htr). cbn [app] in *.
    assert (Hs : sem_ch (fun ts qs => exists q, qs = [q] /\ exists ts', ts = t :: ts' /\ sp_expr E C ts' q) (Leaf t :: [tr])).
    { eapply (sem_ch_pre (fun ts qs => exists q, qs = [q] /\ sp_expr E C ts q)).
      - intros ts qs (q & -> & Hq). exists q. split; [reflexivity|]. exists ts. auto.
      - rewrite Ht. cbv; intuition discriminate.
      - eapply sem_ch_one; [|exact Htr]. cbn beta. intros ts q Hq. exists q. auto. }
    cbn [spec]. eapply sem_impl; [|eapply (unary_rule expression_not PNot); [discriminate|exact Hd0|reflexivity|exact Hs]].
    cbn beta. intros ts q (n & -> & ts' & -> & Hn). split; [constructor; assumption|reflexivity].
  Qed.
  Lemma rule_egroup ch : derives (body expression_group) ch -> Forall child_spec ch -> spec expression_group (Node expression_group ch).
  Proof.
    intros Hd Hk. assert (Hd0 := Hd). cbn [body] in Hd. inversion Hd as [| |? ? x1 x2 H1 H2| | | | | | |]; subst; clear Hd.
    apply Forall_app in Hk. destruct Hk as [Hk1 Hk2]. inversion H1; subst. in1.
    inversion H2 as [| |? ? x3 x4 H3 H4| | | | | | |]; subst. inversion H4; subst. in1.
    apply Forall_app in Hk2. destruct Hk2 as [Hk2 Hk3].
    destruct (alt_all x3 H3 Hk2) as (tr & -> & Htr). cbn [app] in *.
    match goal with |- spec _ (Node _ [Leaf ?a; _; Leaf ?b]) => rename a into lp; rename b into rp end.
    assert (Hs : sem_ch (fun ts qs => exists q, qs = [q] /\ exists ts', ts = lp :: ts' ++ [rp] /\ sp_expr E C ts' q) (Leaf lp :: [tr] ++ [Leaf rp])).
    { eapply (sem_ch_pre (fun ts qs => exists q, qs = [q] /\ exists ts', ts = ts' ++ [rp] /\ sp_expr E C ts' q)).
      - intros ts qs (q & -> & ts' & -> & Hq). exists q. split; [reflexivity|]. exists ts'. auto.
      - match goal with H : t_type lp = _ |- _ => rewrite H end. cbv; intuition discriminate.
      - eapply (sem_ch_post (fun ts qs => exists q, qs = [q] /\ sp_expr E C ts q)).
        + intros ts qs (q & -> & Hq). exists q. split; [reflexivity|]. exists ts. auto.
        + match goal with H : t_type rp = _ |- _ => rewrite H end. cbv; intuition discriminate.
        + eapply sem_ch_one; [|exact Htr]. cbn beta. intros ts q Hq. exists q. auto. }
    cbn [spec]. eapply sem_impl; [|eapply (unary_rule expression_group PExprGroup); [discriminate|exact Hd0|reflexivity|exact Hs]].
    cbn beta. intros ts q (n & -> & ts' & -> & Hn). split; [constructor; assumption|reflexivity].
  Qed.
  Lemma rule_expression ch : derives (body expression) ch -> Forall child_spec ch -> spec expression (Node expression ch).
  Proof.
    intros Hd Hk. cbn [body] in Hd. destruct (alt_all ch Hd Hk) as (t & -> & Ht). cbn [spec].
    apply pass_rule; [reflexivity|]. eapply sem_ch_one; [|exact Ht]. cbn beta. intros ts q Hq. exists q. auto.
  Qed.

  (** *** Query level *)
  Lemma rule_implicit ch : derives (body query_implicit) ch -> Forall child_spec ch -> spec query_implicit (Node query_implicit ch).
  Proof.
    intros Hd Hk. assert (Hloc := rule_span query_implicit ch ltac:(discriminate) Hd). cbn [body] in Hd. inv_derives; kids; cbn [spec child_spec] in *.
    match goal with H : sem_regexp (Node regexp ?x) |- _ => rename x into cr; destruct H as (Hg & Hr) end.
    unfold BuilderFacts.sem. assert (Hlv : leaves (Node query_implicit [Node regexp cr]) = leaves (Node regexp cr)) by (cbn; apply app_nil_r).
    rewrite Hlv in *. split; [exact Hg|]. destruct Hr as [(v & fl & Hsr & Hc & Hv)|(Hc & e & He)].
    - left. exists (QN (PExpr None (default_identifier C) (default_operator C) v (opt_flags fl)) (span (leaves (Node regexp cr))) []).
      split; [intros tq mn mx Hq; constructor; assumption|]. split; [exact Hc|].
      intros H Nd nn sl b s h. rewrite visit_node. cbn [visit_rule]. unfold visitQuery_implicit, push. cbn [visit_ch fst snd]. rewrite Hv. cbn [rbind].
      pose proof (finish_spec H Nd nn sl b (Node query_implicit [Node regexp cr]) fl v None (default_identifier C) (default_operator C) s h
        ltac:(discriminate)) as Hf. cbn [default_identifier default_operator at_loc] in *. rewrite Hf, Hloc. reflexivity.
    - right. split; [exact Hc|]. exists e. intros H Nd nn sl b s h. rewrite visit_node. cbn [visit_rule].
      unfold visitQuery_implicit, push. cbn [visit_ch fst snd]. rewrite He. reflexivity.
  Qed.

  Lemma rule_segment ch : derives (body query_segment) ch -> Forall child_spec ch -> spec query_segment (Node query_segment ch).
  Proof.
    intros Hd Hk. assert (Hloc := rule_span query_segment ch ltac:(discriminate) Hd). cbn [body] in Hd. inv_derives; in1; kids; cbn [spec child_spec app] in *.
    - (* empty brackets *)
      match goal with |- sem _ (Node _ [Leaf ?a; Leaf ?b]) => rename a into lb; rename b into rb end.
      unfold BuilderFacts.sem. cbn [leaves flat_map app] in *. split; [apply good_end_cons, good_end_one; nott|]. left.
      exists (QN PWildcard (span [lb; rb]) []). split; [intros tq mn mx Hq; constructor; assumption|]. split.
      { rewrite conds_cons by nott. apply conds_one. nott. }
      intros H Nd nn sl b s h. rewrite visit_node. cbn [visit_rule]. unfold visitQuery_segment. cbn [List.length Nat.eqb].
      rewrite build_alloc, Hloc. cbn [alloc]. destruct (alloc1 nn sl b PWildcard (span [lb; rb]) (h, [])). reflexivity.
    - match goal with |- sem _ (Node _ [Leaf ?a; Node _ ?c; Leaf ?b]) => rename a into lb; rename b into rb; rename c into ce end.
      apply pass_rule; [reflexivity|].
      eapply (sem_ch_pre (fun ts qs => exists q ts', qs = [q] /\ ts = ts' ++ [rb] /\ sp_expr E C ts' q)).
      + intros ts qs (q & ts' & -> & -> & Hq). exists q. split; [reflexivity|]. intros tq mn mx Hm.
        cbn [app]. rewrite <- app_assoc. cbn [app]. constructor; assumption.
      + nott.
      + change [Node expression ce; Leaf rb] with ([Node expression ce] ++ [Leaf rb]).
        eapply (sem_ch_post (fun ts qs => exists q, qs = [q] /\ sp_expr E C ts q)); [|nott|].
        * intros ts qs (q & -> & Hq). exists q, ts. auto.
        * eapply sem_ch_one; [|eassumption]. cbn beta. intros ts q Hq. exists q. auto.
  Qed.

  (** Quantifiers. *)
  Lemma quant_types tq : quant_shape tq -> forall t, In t tq -> t_type t <> REGEXP /\ t_type t <> FWD_SLASH.
  Proof.
    intros Hs t Ht. destruct Hs; cbn [In] in Ht;
      repeat (destruct Ht as [<-|Ht]; [split; congruence|]); destruct Ht.
  Qed.
  Lemma quant_end tq : quant_shape tq -> good_end tq.
  Proof.
    intros Hs. destruct Hs; repeat (first [apply good_end_one; nott|apply good_end_cons]).
  Qed.
  Lemma conds_ints tq : quant_shape tq -> conds tq <-> ints_ok E tq.
  Proof.
    intros Hs. pose proof (quant_types tq Hs) as Ht. rewrite <- texts_ok_conds. unfold texts_ok, ints_ok. split; [tauto|].
    intros [A B]. split; [intros t Hin Hty; exfalso; apply (proj1 (Ht t Hin)); exact Hty|]. split; [|split; assumption].
    intros pre s f post -> Hty. exfalso. apply (proj2 (Ht s ltac:(apply in_or_app; right; left; reflexivity))). exact Hty.
  Qed.
  Lemma quant_outcome tq : quant_shape tq -> Forall tok_ok tq ->
    (exists mn mx, quantified tq mn mx /\ conds tq /\ processRepetition E (map Leaf tq) = Ok (mn, mx)) \/
    (~ conds tq /\ exists e, processRepetition E (map Leaf tq) = Raise e).
  Proof.
    intros Hs Hok. rewrite (conds_ints tq Hs). destruct (repetition_spec E tq Hs) as [(mn & mx & A & B & D)|H].
    - intros t Ht Hty. rewrite Forall_forall in Hok. destruct (Hok t Ht) as [Hx _]. rewrite Hty in Hx. apply Hx. discriminate.
    - left. exists mn, mx. rewrite (conds_ints tq Hs). auto.
    - right. exact H.
  Qed.

  Definition quant_part (l : list ptree) (tq : list token) : Prop :=
    (l = [] /\ tq = []) \/ (l = [Node quantifier (map Leaf tq)] /\ quant_shape tq /\ Forall tok_ok tq).
  Lemma flat_leaf ts : flat_map leaves (map Leaf ts) = ts.
  Proof. induction ts as [|t ts IH]; [reflexivity|]. cbn. rewrite IH. reflexivity. Qed.
  Lemma quant_part_leaves l tq : quant_part l tq -> flat_map leaves l = tq.
  Proof. intros [[-> ->]|[-> _]]; [reflexivity|]. cbn. rewrite app_nil_r. apply flat_leaf. Qed.
  Lemma quant_part_rep core l tq : find_rule quantifier core = None -> quant_part l tq ->
    (exists mn mx, quantified tq mn mx /\ conds tq /\ repetition E (core ++ l) = Ok (mn, mx)) \/
    (~ conds tq /\ exists e, repetition E (core ++ l) = Raise e).
  Proof.
    intros Hc Hl. unfold repetition. assert (Hf : forall l2, find_rule quantifier (core ++ l2) = find_rule quantifier l2).
    { intros l2. revert Hc. unfold find_rule. induction core as [|c core IH]; [reflexivity|]. cbn [find app].
      destruct c as [k|r ch]; [exact IH|]. destruct (rule_eqb r quantifier); [discriminate|exact IH]. }
    rewrite Hf. destruct Hl as [[-> ->]|[-> [Hs Hok]]]; cbn.
    - left. exists 1, 1. split; [constructor|]. split; [exact I|reflexivity].
    - apply quant_outcome; assumption.
  Qed.
  Lemma quant_part_visit H Nd nn sl b l tq (s : st (H := H) (Nd := Nd)) : quant_part l tq ->
    visit_ch nn sl E (at_loc C b) l s = Ok s.
  Proof.
    intros [[-> ->]|[-> _]]; [reflexivity|]. cbn [visit_ch]. rewrite visit_node. cbn [visit_rule]. rewrite visit_ch_leaves. reflexivity.
  Qed.

  Lemma quant_rule r p Q core l tq :
    r <> query -> derives (body r) (core ++ l) ->
    (forall H Nd nn sl b (s : st (H := H) (Nd := Nd)), visit_tree nn sl E (at_loc C b) (Node r (core ++ l)) s =
       rbind (visit_ch nn sl E (at_loc C b) (core ++ l) s) (fun s1 =>
       rbind (repetition E (core ++ l)) (fun '(mn, mx) =>
       rbind (pop_node s1) (fun '(c, s2) => Ok (build nn sl (at_loc C b) (Node r (core ++ l)) (p mn mx) [c] s2))))) ->
    find_rule quantifier core = None -> quant_part l tq ->
    sem_ch (fun ts qs => exists q, qs = [q] /\ Q ts q) core ->
    sem (fun ts q => exists tc tq n mn mx, ts = tc ++ tq /\ Q tc n /\ quantified tq mn mx /\ q = QN (p mn mx) (span ts) [n])
      (Node r (core ++ l)).
  Proof.
    intros Hr Hd Hv Hfind Hl [Hg Hs].
    assert (Hlv : leaves (Node r (core ++ l)) = flat_map leaves core ++ tq).
    { cbn [leaves]. rewrite flat_map_app. f_equal. apply quant_part_leaves. exact Hl. }
    pose proof (rule_span r _ Hr Hd) as Hloc. unfold BuilderFacts.sem. rewrite Hlv in *. split.
    { destruct Hl as [[-> ->]|[-> [Hsh _]]]; [rewrite app_nil_r; exact Hg|]. apply good_end_app, quant_end. exact Hsh. }
    assert (Hcd : conds (flat_map leaves core ++ tq) <-> conds (flat_map leaves core) /\ conds tq) by (apply conds_app; exact Hg).
    destruct Hs as [(qs & (q & -> & Hq) & Hc & Hy)|(Hc & e & He)].
    - destruct (quant_part_rep core l tq Hfind Hl) as [(mn & mx & Hqt & Hcq & Hrep)|(Hcq & e & Hrep)].
      + left. exists (QN (p mn mx) (span (flat_map leaves core ++ tq)) [q]). split; [do 5 eexists; eauto|]. split; [apply Hcd; auto|].
        intros H Nd nn sl b s h. rewrite Hv, visit_ch_app, Hy, alloc_eq. cbn [alloc_list].
        destruct (alloc nn sl b q h) as [h1 n]. cbn [rbind rev app map]. rewrite (quant_part_visit _ _ nn sl b l tq _ Hl). cbn [rbind].
        rewrite Hrep. cbn [rbind]. cbn [pop_node pop fst snd rbind]. rewrite build_alloc, Hloc.
        destruct (alloc1 nn sl b (p mn mx) (span (flat_map leaves core ++ tq)) (h1, [n])). reflexivity.
      + right. split; [rewrite Hcd; tauto|]. exists e. intros H Nd nn sl b s h. rewrite Hv, visit_ch_app, Hy.
        destruct (alloc_list nn sl b [q] h) as [h1 ns]. cbn [rbind]. rewrite (quant_part_visit _ _ nn sl b l tq _ Hl). cbn [rbind].
        rewrite Hrep. reflexivity.
    - right. split; [rewrite Hcd; tauto|]. exists e. intros H Nd nn sl b s h. rewrite Hv, visit_ch_app, He. reflexivity.
  Qed.

  Lemma op_quant x : derives (Op (NT quantifier)) x -> Forall child_spec x -> exists tq, quant_part x tq.
  Proof.
    intros Hd Hk. inv_derives; kids; cbn [spec child_spec] in *.
    - exists []. left. auto.
    - match goal with H : exists ts, _ |- _ => destruct H as (ts & Heq & Hs & Hok) end. injection Heq as ->. exists ts. right. auto.
  Qed.

  Lemma rule_simple ch : derives (body query_simple) ch -> Forall child_spec ch -> spec query_simple (Node query_simple ch).
  Proof.
    intros Hd Hk. assert (Hd0 := Hd). cbn [body] in Hd. inversion Hd as [| |? ? x1 x2 H1 H2| | | | | | |]; subst; clear Hd.
    apply Forall_app in Hk. destruct Hk as [Hk1 Hk2]. destruct (op_quant x2 H2 Hk2) as (tq & Hq).
    assert (Hc : exists t, x1 = [t] /\ sem sp_core t /\ find_rule quantifier [t] = None).
    { inv_derives; kids; cbn [spec child_spec] in *; eexists; (split; [reflexivity|]); (split; [eassumption|reflexivity]). }
    destruct Hc as (t & -> & Ht & Hf). cbn [spec]. eapply sem_impl; [|eapply (quant_rule query_simple PSegment sp_core [t] x2 tq)].
    - cbn beta. intros ts q (tc & tq' & n & mn & mx & -> & Hn & Hqt & ->). apply Hn. exact Hqt.
    - discriminate.
    - exact Hd0.
    - reflexivity.
    - exact Hf.
    - exact Hq.
    - eapply sem_ch_one; [|exact Ht]. cbn beta. intros ts q Hqq. exists q. auto.
  Qed.

  Lemma rule_group ch : derives (body query_group) ch -> Forall child_spec ch -> spec query_group (Node query_group ch).
  Proof.
    intros Hd Hk. assert (Hd0 := Hd). cbn [body] in Hd. inversion Hd as [| |? ? x1 x2 H1 H2| | | | | | |]; subst; clear Hd.
    apply Forall_app in Hk. destruct Hk as [Hk1 Hk2]. inversion H1; subst. in1.
    inversion H2 as [| |? ? x3 x4 H3 H4| | | | | | |]; subst.
    inversion H4 as [| |? ? x5 x6 H5 H6| | | | | | |]; subst. inversion H5; subst. in1.
    apply Forall_app in Hk2. destruct Hk2 as [Hk2 Hk3]. apply Forall_app in Hk3. destruct Hk3 as [Hk3 Hk4].
    destruct (op_quant x6 H6 Hk4) as (tq & Hq).
    assert (Hc : exists tr, x3 = [tr] /\ sem (sp_content E C) tr /\ find_rule quantifier [tr] = None).
    { clear - H3 Hk2. inv_derives; kids; cbn [spec child_spec] in *; eexists; (split; [reflexivity|]); (split; [|reflexivity]);
        (eapply sem_impl; [|eassumption]); cbn beta; intros ts q (ns & -> & Hns); [destruct Hns|]; constructor; assumption. }
    destruct Hc as (tr & -> & Htr & Hf).
    match goal with |- spec _ (Node _ ([Leaf ?a] ++ _ ++ [Leaf ?b] ++ _)) => rename a into lp; rename b into rp end.
    change ([Leaf lp] ++ [tr] ++ [Leaf rp] ++ x6) with ((Leaf lp :: [tr] ++ [Leaf rp]) ++ x6) in *.
    cbn [spec]. eapply sem_impl; [|eapply (quant_rule query_group PQGroup (fun ts q => exists tc, ts = lp :: tc ++ [rp] /\ sp_content E C tc q)
       (Leaf lp :: [tr] ++ [Leaf rp]) x6 tq)].
    - cbn beta. intros ts q (tc & tq' & n & mn & mx & -> & (tc' & -> & Hn) & Hqt & ->). cbn [app]. rewrite <- app_assoc. cbn [app].
      constructor; assumption.
    - discriminate.
    - exact Hd0.
    - reflexivity.
    - destruct tr as [|r ?]; [reflexivity|]. cbn in *. destruct (rule_eqb r quantifier); [discriminate|reflexivity].
    - exact Hq.
    - eapply (sem_ch_pre (fun ts qs => exists q, qs = [q] /\ exists tc, ts = tc ++ [rp] /\ sp_content E C tc q)).
      + intros ts qs (q & -> & tc & -> & Hqq). exists q. split; [reflexivity|]. exists tc. auto.
      + nott.
      + eapply (sem_ch_post (fun ts qs => exists q, qs = [q] /\ sp_content E C ts q)).
        * intros ts qs (q & -> & Hqq). exists q. split; [reflexivity|]. exists ts. auto.
        * nott.
        * eapply sem_ch_one; [|exact Htr]. cbn beta. intros ts q Hqq. exists q. auto.
  Qed.

  (** Sequences and disjunctions. *)
  Lemma alt_item x : derives (Al (NT query_simple) (NT query_group)) x -> Forall child_spec x ->
    exists t, x = [t] /\ sem (sp_item E C) t.
  Proof. intros; inv_derives; kids; cbn [spec child_spec] in *; eexists; (split; [reflexivity|assumption]). Qed.
  Lemma alt_operand x : derives (Al (NT query_simple) (Al (NT query_sequence) (NT query_group))) x -> Forall child_spec x ->
    exists t, x = [t] /\ sem (sp_operand E C) t.
  Proof.
    intros; inv_derives; kids; cbn [spec child_spec] in *; eexists; (split; [reflexivity|]);
      (eapply sem_impl; [|eassumption]); cbn beta; intros ts q Hq; [|destruct Hq as (ns & -> & Hq)|]; constructor; assumption.
  Qed.
  Lemma juxt_seq ts ns : juxt (sp_item E C) ts ns -> sp_seq E C ts ns.
  Proof. induction 1; constructor; assumption. Qed.
  Lemma sepby_alts ts ns : sepby (sp_operand E C) OR ts ns -> sp_alts E C ts ns /\ (1 <= List.length ns)%nat.
  Proof. induction 1 as [|ts n k ts' ns Hn Hk _ [IH1 IH2]]; (split; [constructor; assumption|cbn; lia]). Qed.

  Lemma rule_sequence ch : derives (body query_sequence) ch -> Forall child_spec ch -> spec query_sequence (Node query_sequence ch).
  Proof.
    intros Hd Hk. assert (Hd0 := Hd). cbn [body] in Hd. pose proof (pl_juxt_sem _ _ _ alt_item Hd Hk) as Hs.
    cbn [spec]. eapply sem_impl; [|eapply (list_rule query_sequence (u "visitQuery_sequence") PSequence); [discriminate|exact Hd0|reflexivity|exact Hs|]].
    - cbn beta. intros ts q (ns & -> & Hns). exists ns. split; [reflexivity|]. apply juxt_seq. exact Hns.
    - intros ts qs Hq ->. inversion Hq.
  Qed.
  Lemma rule_disjunction ch : derives (body query_disjunction) ch -> Forall child_spec ch -> spec query_disjunction (Node query_disjunction ch).
  Proof.
    intros Hd Hk. assert (Hd0 := Hd). cbn [body] in Hd. inversion Hd as [| |? ? x1 x2 H1 H2| | | | | | |]; subst; clear Hd.
    apply Forall_app in Hk. destruct Hk as [Hk1 Hk2]. destruct (alt_operand x1 H1 Hk1) as (t & -> & Ht).
    destruct (pl_sep_sem _ OR _ _ ltac:(cbv; intuition discriminate) alt_operand H2 Hk2) as (k & l & -> & Hkt & Hl). cbn [app] in *.
    assert (Hs : sem_ch (fun ts qs => sp_alts E C ts qs /\ (2 <= List.length qs)%nat) (t :: Leaf k :: l)).
    { eapply sem_ch_sep; [|rewrite Hkt; cbv; intuition discriminate|exact Ht|exact Hl].
      cbn beta. intros ts q ts' qs Hq Hsep. destruct (sepby_alts _ _ Hsep) as (A & B).
      split; [constructor; assumption|cbn; lia]. }
    cbn [spec]. eapply (list_rule query_disjunction (u "visitQuery_disjunction") PDisjunction); [discriminate|exact Hd0|reflexivity|exact Hs|].
    intros ts qs (_ & Hlen) ->. cbn in Hlen. lia.
  Qed.
  Lemma rule_main ch : derives (body main_query) ch -> Forall child_spec ch -> spec main_query (Node main_query ch).
  Proof.
    intros Hd Hk. cbn [body] in Hd. assert (Hs : exists t, ch = [t] /\ sem (sp_main E C) t).
    { inv_derives; kids; cbn [spec child_spec] in *; eexists; (split; [reflexivity|]);
        (eapply sem_impl; [|eassumption]); cbn beta; intros ts q Hq.
      - apply sm_item; exact Hq.
      - apply sm_item; exact Hq.
      - destruct Hq as (ns & -> & Hq). apply sm_content. constructor; assumption.
      - destruct Hq as (ns & -> & Hq & Hlen). apply sm_content. constructor; assumption. }
    destruct Hs as (t & -> & Ht). cbn [spec]. apply pass_rule; [reflexivity|]. eapply sem_ch_one; [|exact Ht].
    cbn beta. intros ts q Hq. exists q. auto.
  Qed.

  (** Within. *)
  Lemma scope_spec w : In w scope_words -> exists sc, scope_word w sc /\ within_scope w = Ok sc.
  Proof.
    cbn [scope_words map In]. intros H.
    repeat (destruct H as [<-|H]; [eexists; split; [constructor|reflexivity]|]). destruct H.
  Qed.
  Lemma rule_scope ch : derives (body within_part_simple) ch -> Forall child_spec ch -> spec within_part_simple (Node within_part_simple ch).
  Proof.
    intros Hd Hk. assert (Hloc := rule_span within_part_simple ch ltac:(discriminate) Hd). cbn [body] in Hd. inversion Hd; subst; kids; in1; cbn [spec child_spec] in *.
    assert (Hw : In (t_text t) scope_words).
    { match goal with H : tok_ok t |- _ => destruct H as [Hx _] end. rewrite Ht in Hx. apply Hx. discriminate. }
    destruct (scope_spec _ Hw) as (sc & Hsc & Hval). unfold BuilderFacts.sem. cbn [leaves flat_map app] in *. split; [apply good_end_one; nott|].
    left. exists (QN (PSimpleWithin sc) (span [t]) []). split; [exists t, sc; auto|]. split; [apply conds_one; nott|].
    intros H Nd nn sl b s h. rewrite visit_node. cbn [visit_rule]. unfold visitWithin_part_simple. rewrite get_text_leaf, Hval. cbn [rmap].
    rewrite build_alloc, Hloc. cbn [alloc]. destruct (alloc1 nn sl b (PSimpleWithin sc) (span [t]) (h, [])). reflexivity.
  Qed.
  Lemma rule_within ch : derives (body within_part) ch -> Forall child_spec ch -> spec within_part (Node within_part ch).
  Proof.
    intros Hd Hk. cbn [body] in Hd. inv_derives; kids; cbn [spec child_spec] in *. apply pass_rule; [reflexivity|].
    eapply sem_ch_one; [|eassumption]. cbn beta. intros ts q Hq. exists q. auto.
  Qed.

  Lemma span_eof r x e : Forall (fun k => t_type k <> EOF) (flat_map leaves x) -> t_type e = EOF -> flat_map leaves x <> [] ->
    fromContext (Node r (x ++ [Leaf e])) = span (flat_map leaves x).
  Proof.
    intros Hx He Hne. unfold fromContext, ctx_start, ctx_stop. cbn [leaves]. rewrite flat_map_app. cbn [flat_map leaves app].
    rewrite filter_app. cbn [filter]. unfold ttype_eqb at 2. rewrite He. cbn [negb].
    destruct (ttype_eq_dec EOF EOF); [|congruence]. cbn [negb]. rewrite app_nil_r.
    assert (Hf : filter (fun k => negb (ttype_eqb (t_type k) EOF)) (flat_map leaves x) = flat_map leaves x).
    { clear Hne. induction Hx as [|k l Hk _ IH]; [reflexivity|]. cbn [filter]. unfold ttype_eqb at 1.
      destruct (ttype_eq_dec (t_type k) EOF); [contradiction|]. cbn [negb]. rewrite IH. reflexivity. }
    rewrite Hf. unfold span. destruct (flat_map leaves x) as [|a l]; [contradiction|]. cbn [hd_error app].
    rewrite (last_hd_rev (a :: l) a) by discriminate. reflexivity.
  Qed.

  Lemma rule_query ch : derives (body query) ch -> Forall child_spec ch -> spec query (Node query ch).
  Proof.
    intros Hd Hk. cbn [body] in Hd. inv_derives; in1; kids; cbn [spec child_spec] in *; cbn [app].
    - (* no within *)
      match goal with |- sem _ (Node _ [Node main_query ?c; Leaf ?e]) => rename c into cm; rename e into eof end.
      assert (Hs : sem_ch (fun ts qs => exists q, qs = [q] /\ sp_query E C ts q) [Node main_query cm; Leaf eof]).
      { change [Node main_query cm; Leaf eof] with ([Node main_query cm] ++ [Leaf eof]).
        eapply (sem_ch_post (fun ts qs => exists q, qs = [q] /\ sp_main E C ts q)).
        - intros ts qs (q & -> & Hq). exists q. split; [reflexivity|]. constructor; assumption.
        - nott.
        - eapply sem_ch_one; [|eassumption]. cbn beta. intros ts q Hq. exists q. auto. }
      destruct Hs as [Hg Hs]. split; [exact Hg|]. destruct Hs as [(qs & (q & -> & Hq) & Hc & Hy)|(Hc & e & He)].
      + left. exists q. split; [exact Hq|]. split; [exact Hc|]. intros H Nd nn sl b s h. rewrite visit_node. cbn [visit_rule]. unfold visitQuery.
        rewrite Hy. cbn [alloc_list]. destruct (alloc nn sl b q h). reflexivity.
      + right. split; [exact Hc|]. exists e. intros H Nd nn sl b s h. rewrite visit_node. cbn [visit_rule]. unfold visitQuery. rewrite He. reflexivity.
    - match goal with |- sem _ (Node _ [Node main_query ?c; Leaf ?w; Node within_part ?d; Leaf ?e]) => rename c into cm; rename e into eof; rename w into wi; rename d into cw end.
      assert (Hdm : derives (body main_query) cm) by assumption. assert (Hdw : derives (body within_part) cw) by assumption.
      assert (Hs : sem_ch (fun ts qs => exists tm q k sc, ts = tm ++ [wi; k; eof] /\ is_tok SIMPLE_WITHIN_SCOPE k /\ scope_word (t_text k) sc /\
          qs = [q; QN (PSimpleWithin sc) (span [k]) []] /\ sp_main E C tm q) [Node main_query cm; Leaf wi; Node within_part cw; Leaf eof]).
      { eapply (sem_ch_sep (sp_main E C) (fun ts qs => exists k sc, ts = [k; eof] /\ is_tok SIMPLE_WITHIN_SCOPE k /\ scope_word (t_text k) sc /\
          qs = [QN (PSimpleWithin sc) (span [k]) []])).
        - intros ts q ts' qs Hq (k & sc & -> & A & B & ->). do 4 eexists. repeat split; eauto.
        - nott.
        - assumption.
        - change [Node within_part cw; Leaf eof] with ([Node within_part cw] ++ [Leaf eof]).
          eapply (sem_ch_post (fun ts qs => exists q, qs = [q] /\ sp_scope ts q)).
          + intros ts qs (q & -> & k & sc & -> & A & B & ->). exists k, sc. auto.
          + nott.
          + eapply sem_ch_one; [|eassumption]. cbn beta. intros ts q Hq. exists q. auto. }
      destruct Hs as [Hg Hs]. split; [exact Hg|]. destruct Hs as [(qs & (tm & q & k & sc & Hts & A & B & -> & Hq) & Hc & Hy)|(Hc & e & He)].
      + left. exists (QN PWithWithin (span (tm ++ [wi; k])) [q; QN (PSimpleWithin sc) (span [k]) []]).
        split; [cbn [leaves]; rewrite Hts; constructor; assumption|]. split; [exact Hc|]. intros H Nd nn sl b s h. rewrite visit_node. cbn [visit_rule]. unfold visitQuery.
        rewrite Hy, alloc_eq. change (find_rule within_part [Node main_query cm; Leaf wi; Node within_part cw; Leaf eof]) with (Some (Node within_part cw)).
        cbn [alloc_list]. destruct (alloc nn sl b q h) as [h1 n1]. destruct (alloc nn sl b (QN (PSimpleWithin sc) (span [k]) []) h1) as [h2 n2].
        cbn [rbind rev app map pop_node pop fst snd]. rewrite build_alloc.
        change [Node main_query cm; Leaf wi; Node within_part cw; Leaf eof] with ([Node main_query cm; Leaf wi; Node within_part cw] ++ [Leaf eof]) in *.
        assert (Hl : flat_map leaves [Node main_query cm; Leaf wi; Node within_part cw] = tm ++ [wi; k]).
        { rewrite flat_map_app in Hts. change (tm ++ [wi; k; eof]) with (tm ++ [wi; k] ++ [eof]) in Hts. rewrite app_assoc in Hts.
          change (flat_map leaves [Leaf eof]) with [eof] in Hts. apply app_inj_tail in Hts. apply Hts. }
        rewrite span_eof; [|rewrite Forall_forall|assumption|].
        * rewrite Hl. destruct (alloc1 nn sl b PWithWithin (span (tm ++ [wi; k])) (h2, [n1; n2])). reflexivity.
        * intros x Hx. cbn [flat_map] in Hx. rewrite !in_app_iff in Hx. destruct Hx as [Hx|[Hx|[Hx|[]]]].
          { pose proof (rule_no_eof main_query cm ltac:(discriminate) Hdm) as HF. rewrite Forall_forall in HF. auto. }
          { destruct Hx as [<-|[]]. congruence. }
          { pose proof (rule_no_eof within_part cw ltac:(discriminate) Hdw) as HF. rewrite Forall_forall in HF. auto. }
        * rewrite Hl. destruct tm; discriminate.
      + right. split; [exact Hc|]. exists e. intros H Nd nn sl b s h. rewrite visit_node. cbn [visit_rule]. unfold visitQuery. rewrite He. reflexivity.
  Qed.

  (** *** All rules *)
  Lemma rule_spec r ch : derives (body r) ch -> Forall child_spec ch -> spec r (Node r ch).
  Proof.
    destruct r; auto using rule_query, rule_main, rule_disjunction, rule_sequence, rule_group, rule_simple, rule_quantifier, rule_implicit,
      rule_segment, rule_within, rule_scope, rule_expression, rule_or, rule_and, rule_egroup, rule_not, rule_basic, rule_attribute,
      rule_regexp, rule_pattern, rule_flag; apply rule_name; auto.
  Qed.
  Lemma derives_spec e x : derives e x -> Forall tok_ok (flat_map leaves x) -> Forall child_spec x.
  Proof.
    induction 1 as [l t Hin|r ch Hd IH|a b x y _ IH1 _ IH2|a b x _ IH|a b x _ IH|e|e x _ IH|e x y _ IH1 _ IH2|e|e x y _ IH1 _ IH2];
      rewrite ?flat_map_app; intros Ht; rewrite ?Forall_app in *.
    - cbn in Ht. inversion Ht; subst. constructor; [assumption|constructor].
    - cbn in Ht. rewrite app_nil_r in Ht. constructor; [|constructor]. apply rule_spec; auto.
    - destruct Ht. auto.
    - auto.
    - auto.
    - constructor.
    - auto.
    - destruct Ht. auto.
    - constructor.
    - destruct Ht. auto.
  Qed.
  Lemma query_spec t : parse_tree query t -> Forall tok_ok (leaves t) -> sem (sp_query E C) t.
  Proof.
    intros Hp Ht. pose proof (derives_spec _ _ Hp) as H. cbn in H. rewrite app_nil_r in H. specialize (H Ht). inversion H; subst.
    inversion Hp; subst. assumption.
  Qed.
End Rules.
