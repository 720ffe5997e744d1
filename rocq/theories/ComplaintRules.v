(** Every rule of the grammar: what the tree builder complains about. *)
From Coq Require Import String.
From Verif Require Import Base Regex LexRules Lexer Grammar Antlr Ast Builder RegexFacts LexSpec LitSpec LexFacts
  LexRuleFacts LexThms GramSpec GramFacts ValueSpec ValueFacts SpellSpec BuilderFacts BuilderRules ComplaintSpec WriteFacts Numerals ComplaintFacts.
From Coq Require Import ZifyBool ZifyN.
Local Open Scope Z_scope.

Section Rules.
  Variables (E : penv) (C : pcfg).
  Notation no_complaint := (no_complaint E).
  Notation first_complaint := (first_complaint E).

  Lemma min_checked l i c : tok_ok l -> tok_ok i -> tok_ok c -> t_type l = L_CURLY_BRACKET -> t_type i = INTEGER -> t_type c = Q_COMMA ->
    int_ok E (t_text i) -> no_complaint [l; i; c].
  Proof.
    intros Hol Hoi Hoc Hl Hi Hc Hok. apply conds_no_complaint; [do 3 (constructor; [assumption|]); constructor|].
    cbn [conds]. unfold cond1. rewrite Hl, Hi, Hc. repeat split; try discriminate. exact (fun _ => Hok).
  Qed.
  Lemma repetition_complaint tq e : quant_shape tq -> Forall tok_ok tq -> processRepetition E (map Leaf tq) = Raise e ->
    first_complaint tq (exn_msg e).
  Proof.
    intros Hs Hok. assert (Hdig : forall t, In t tq -> t_type t = INTEGER -> digits_text t).
    { intros t Hin Hty. rewrite Forall_forall in Hok. destruct (Hok t Hin) as [Hx _]. rewrite Hty in Hx. apply Hx. discriminate. }
    destruct Hs as [t Ht|t Ht|t Ht|l i r Hl Hi Hr|l i c r Hl Hi Hc Hr|l c i r Hl Hc Hi Hr|l i c j r Hl Hi Hc Hj Hr];
      unfold processRepetition, has_token, find_token; cbn [map find];
      repeat match goal with H : t_type ?t = _ |- _ => rewrite !H end; cbn [ttype_eqb ttype_eq_dec ttype_rec ttype_rect];
      unfold ttype_eqb; cbn; try discriminate.
    - pose proof (range_exact E l i r Hl Hi Hr) as HR; cbn [map] in HR; rewrite HR; clear HR.
      destruct (parseInt E (t_text i)) as [v|e'] eqn:Hp; cbn.
      + replace (v <? v) with false by lia. rewrite andb_false_r. discriminate.
      + intros He. injection He as ->. exists [l], i, [r]. split; [reflexivity|]. split; [apply no_complaint_one; rewrite Hl; cbn; intuition discriminate|].
        apply int_complaint; [exact Hi|apply Hdig; [cbn; tauto|exact Hi]|exact Hp].
    - pose proof (range_min E l i c r Hl Hi Hc Hr) as HR; cbn [map] in HR; rewrite HR; clear HR.
      destruct (parseInt E (t_text i)) as [v|e'] eqn:Hp; cbn; [discriminate|].
      intros He. injection He as ->. exists [l], i, [c; r]. split; [reflexivity|]. split; [apply no_complaint_one; rewrite Hl; cbn; intuition discriminate|].
      apply int_complaint; [exact Hi|apply Hdig; [cbn; tauto|exact Hi]|exact Hp].
    - pose proof (range_max E l c i r Hl Hc Hi Hr) as HR; cbn [map] in HR; rewrite HR; clear HR.
      destruct (Hdig i ltac:(cbn; tauto) Hi) as [Hne Hf].
      destruct (parseInt E (t_text i)) as [v|e'] eqn:Hp; cbn.
      + destruct (parseInt_ok E (t_text i) Hne Hf) as [[_ Hp']|[_ (e' & Hp')]]; [|congruence]. rewrite Hp in Hp'. injection Hp' as ->.
        pose proof (dec_value_nonneg _ Hf). destruct (Z.ltb_spec (dec_value (t_text i)) 0); [lia|]. rewrite andb_false_r. discriminate.
      + intros He. injection He as ->. exists [l; c], i, [r]. split; [reflexivity|]. split.
        * apply (no_complaint_app E [l] [c]); [apply good_end_one| |]; try (apply no_complaint_one); rewrite ?Hl, ?Hc; cbn; intuition discriminate.
        * apply int_complaint; [exact Hi|split; assumption|exact Hp].
    - pose proof (range_range E l i c j r Hl Hi Hc Hj Hr) as HR; cbn [map] in HR; rewrite HR; clear HR.
      destruct (Hdig i ltac:(cbn; tauto) Hi) as [Hne Hf]. destruct (Hdig j ltac:(cbn; tauto) Hj) as [Hne' Hf'].
      inversion Hok as [|? ? Hol Hok1]; subst. inversion Hok1 as [|? ? Hoi Hok2]; subst. inversion Hok2 as [|? ? Hoc _]; subst.
      destruct (parseInt E (t_text i)) as [v|e'] eqn:Hp; cbn.
      + destruct (parseInt_ok E (t_text i) Hne Hf) as [[Hiok Hp']|[_ (e' & Hp')]]; [|congruence]. rewrite Hp in Hp'. injection Hp' as ->.
        pose proof (min_checked l i c Hol Hoi Hoc Hl Hi Hc Hiok) as Hmin.
        destruct (parseInt E (t_text j)) as [w|e'] eqn:Hq; cbn.
        * destruct (parseInt_ok E (t_text j) Hne' Hf') as [[Hjok Hq']|[_ (e' & Hq')]]; [|congruence]. rewrite Hq in Hq'. injection Hq' as ->.
          destruct (_ && _) eqn:Eb; [|discriminate]. intros He. injection He as <-.
          pose proof (dec_value_nonneg _ Hf). pose proof (dec_value_nonneg _ Hf').
          exists [l; i; c], j, [r]. split; [reflexivity|]. split; [exact Hmin|]. cbn [exn_msg].
          apply (c_range E [l] i c j (Z.to_N (dec_value (t_text i))) (Z.to_N (dec_value (t_text j)))); try assumption;
            try (apply numeral_dec; assumption); try (apply written_dec; assumption). lia.
        * intros He. injection He as ->. exists [l; i; c], j, [r]. split; [reflexivity|]. split; [exact Hmin|].
          apply int_complaint; [exact Hj|split; assumption|exact Hq].
      + intros He. injection He as ->. exists [l], i, [c; j; r]. split; [reflexivity|]. split; [apply no_complaint_one; rewrite Hl; cbn; intuition discriminate|].
        apply int_complaint; [exact Hi|split; assumption|exact Hp].
  Qed.

  Notation V := (visit_tree new_tree set_loc_tree E C).
  Notation VS := (visit_ch new_tree set_loc_tree E C).

  (** Nodes whose texts are only read by the node above. *)
  Definition silent (r : rule) : bool :=
    match r with quantifier | qualifier | identifier | regexp_pattern | regexp_flag => true | _ => false end.
  Definition plain_tok (k : token) : Prop := ~ In (t_type k) [REGEXP; FWD_SLASH; INTEGER; Q_COMMA; REGEXP_FLAGS].
  Definition kid_ok (c : ptree) : Prop :=
    Forall tok_ok (leaves c) /\
    match c with
    | Leaf k => plain_tok k
    | Node r ch => good_end (leaves c) /\ (forall s s', V c s = Ok s' -> conds E (leaves c)) /\
        (conds E (leaves c) -> forall s, exists s', V c s = Ok s') /\
        (forall s e, V c s = Raise e -> first_complaint (leaves c) (exn_msg e))
    end.
  Lemma kid_good c : kid_ok c -> good_end (leaves c).
  Proof. destruct c as [k|r ch]; intros [_ H]; [cbn; apply good_end_one|apply H]. unfold plain_tok in H. cbn in *. tauto. Qed.
  Lemma kid_conds c s s' : kid_ok c -> V c s = Ok s' -> conds E (leaves c).
  Proof. destruct c as [k|r ch]; intros [_ H] Hv; [|eapply H; exact Hv]. apply conds_one. unfold plain_tok in H. cbn in *. tauto. Qed.
  Lemma kids_end ch : Forall kid_ok ch -> flat_map leaves ch = [] \/ good_end (flat_map leaves ch).
  Proof.
    induction 1 as [|c ch Hc _ IH]; [left; reflexivity|right]. cbn [flat_map]. destruct IH as [-> |IH].
    - rewrite app_nil_r. apply kid_good. exact Hc.
    - apply good_end_app. exact IH.
  Qed.
  Lemma kids_conds ch : Forall kid_ok ch -> forall s s', VS ch s = Ok s' -> conds E (flat_map leaves ch).
  Proof.
    induction 1 as [|c ch Hc _ IH]; intros s s' H; [exact I|]. cbn [visit_ch flat_map] in *.
    destruct (V c s) as [s1|e] eqn:Hv; [|discriminate]. cbn [rbind] in H. apply conds_app; [apply kid_good; exact Hc|].
    split; [eapply kid_conds; eassumption|eapply IH; exact H].
  Qed.
  Lemma kids_complaint ch : Forall kid_ok ch -> forall s e, VS ch s = Raise e -> first_complaint (flat_map leaves ch) (exn_msg e).
  Proof.
    induction 1 as [|c ch Hc _ IH]; intros s e H; [discriminate|]. cbn [visit_ch flat_map] in *.
    destruct (V c s) as [s1|e'] eqn:Hv; cbn [rbind] in H.
    - apply first_r; [apply kid_good; exact Hc| |eapply IH; exact H]. apply conds_no_complaint; [apply Hc|]. eapply kid_conds; eassumption.
    - injection H as ->. apply first_l. destruct c as [k|r x]; [discriminate|]. eapply Hc. exact Hv.
  Qed.

  (** A rule whose node is built from its children. *)
  Lemma node_complaint r ch s e : Forall kid_ok ch ->
    (conds E (leaves (Node r ch)) -> forall s, exists s', V (Node r ch) s = Ok s') ->
    (r = expression_basic -> has_token OPERATOR_EQ ch = true \/ has_token OPERATOR_NE ch = true) ->
    r <> regexp -> r <> query_simple -> r <> query_group -> silent r = false -> r <> attribute -> r <> within_part_simple ->
    V (Node r ch) s = Raise e -> first_complaint (leaves (Node r ch)) (exn_msg e).
  Proof.
    intros Hk Hsp Hop N1 N2 N3 N4 N5 N6 Hv.
    assert (Hbad : forall s1 s2, VS ch s1 = Ok s2 -> False).
    { intros s1 s2 H1. destruct (Hsp (kids_conds ch Hk _ _ H1) s) as (s' & Hs'). congruence. }
    assert (Hgo : forall s1, VS ch s1 = Raise e -> first_complaint (leaves (Node r ch)) (exn_msg e)).
    { intros s1 H1. cbn [leaves]. eapply kids_complaint; eassumption. }
    rewrite visit_node in Hv.
    destruct r; try congruence; try discriminate N4; cbn [visit_rule] in Hv;
      unfold visitQuery, visit_list, visitQuery_implicit, visitQuery_segment, visit_unary, visitExpression_basic in Hv;
      repeat match type of Hv with
      | rbind (if ?b then _ else _) _ = _ => destruct b; cbn [rbind] in Hv
      | (if ?b then _ else _) = _ => destruct b; [discriminate Hv|]
      end;
      try match type of Hv with
      | rbind (VS ch ?s1) _ = _ => destruct (VS ch s1) as [s2|e2] eqn:H1; [destruct (Hbad _ _ H1)|cbn [rbind] in Hv; injection Hv as ->; exact (Hgo _ H1)]
      | VS ch ?s1 = _ => exact (Hgo _ Hv)
      end.
    exfalso. destruct (Hop eq_refl) as [Ho|Ho]; congruence.
  Qed.

  (** Acceptance, node by node. *)
  Lemma at_self t s : V t s = visit_tree new_tree set_loc_tree E (at_loc C (enableSourceLocations C)) t s.
  Proof. rewrite at_loc_self. reflexivity. Qed.
  Lemma sem_outcome P t : sem E C P t -> good_end (leaves t) /\ (forall s s', V t s = Ok s' -> conds E (leaves t)) /\
    (conds E (leaves t) -> forall s, exists s', V t s = Ok s').
  Proof.
    intros [Hg [(q & _ & Hc & Hy)|(Hn & e & He)]]; (split; [exact Hg|split]); try (intros; assumption); try contradiction.
    - intros _ [st h]. rewrite at_self, Hy. destruct (alloc _ _ _ _ _). eauto.
    - intros [st h] s' H. rewrite at_self, He in H. discriminate.
  Qed.
  Lemma spec_outcome r t : silent r = false -> spec E C r t -> good_end (leaves t) /\ (forall s s', V t s = Ok s' -> conds E (leaves t)) /\
    (conds E (leaves t) -> forall s, exists s', V t s = Ok s').
  Proof.
    intros Hs. destruct r; try discriminate Hs; cbn [spec]; try apply sem_outcome.
    - intros (Hg & Hc & q & i & _ & _ & Hv). split; [exact Hg|]. split; [intros; exact Hc|]. intros _ [st h]. rewrite at_self, Hv. eauto.
    - intros [Hg [(v & fl & _ & Hc & Hv)|(Hn & e & He)]]; (split; [exact Hg|split]); try (intros; assumption); try contradiction.
      + intros _ [st h]. rewrite at_self, Hv. eauto.
      + intros [st h] s' H. rewrite at_self, He in H. discriminate.
  Qed.

  (** Literals with flags. *)
  Lemma regexp_complaint ch s e : derives (body regexp) ch -> Forall tok_ok (flat_map leaves ch) ->
    V (Node regexp ch) s = Raise e -> first_complaint (leaves (Node regexp ch)) (exn_msg e).
  Proof.
    intros Hd Hok Hv. cbn [body] in Hd. inv_derives; in1; cbn [app] in *;
    repeat match goal with H : derives (body _) _ |- _ => cbn [body] in H; inversion H; clear H; subst end; in1;
    cbn [flat_map leaves app] in *;
    repeat match goal with H : Forall tok_ok (_ :: _) |- _ => inversion H; clear H; subst end.
    - rewrite visit_node in Hv. cbn in Hv. unfold visitRegexp in Hv. cbn in Hv. unfold get_text in Hv. cbn in Hv. rewrite app_nil_r in Hv.
      match goal with H : t_type ?k = REGEXP |- _ => rename k into k0; rename H into Hk0 end.
      assert (Hl : is_literal (t_text k0)).
      { match goal with H : tok_ok k0 |- _ => destruct H as [Ht _]; rewrite Hk0 in Ht; apply Ht; discriminate end. }
      destruct (regexp_value E C (t_text k0)) as [v|e'] eqn:Hr; cbn in Hv; [discriminate|]. injection Hv as ->.
      exists [], k0, []. split; [reflexivity|]. split; [apply no_complaint_nil|]. eapply value_complaint; eassumption.
    - rewrite visit_node in Hv. cbn in Hv. unfold visitRegexp in Hv. cbn in Hv. unfold get_text in Hv. cbn in Hv. rewrite !app_nil_r in Hv.
      match goal with H : t_type ?k = REGEXP |- _ => rename k into k0; rename H into Hk0 end.
      match goal with H : t_type ?k = FWD_SLASH |- _ => rename k into k1; rename H into Hk1 end.
      match goal with H : t_type ?k = REGEXP_FLAGS |- _ => rename k into k2; rename H into Hk2 end.
      assert (Hl : is_literal (t_text k0)).
      { match goal with H : tok_ok k0 |- _ => destruct H as [Ht _]; rewrite Hk0 in Ht; apply Ht; discriminate end. }
      assert (Hf : Forall is_flag_char (t_text k2)).
      { match goal with H : tok_ok k2 |- _ => destruct H as [Ht _]; rewrite Hk2 in Ht; apply Ht; discriminate end. }
      destruct (regexp_value E C (t_text k0)) as [v|e'] eqn:Hr; cbn in Hv.
      + destruct (regexp_flags (t_text k2)) as [fl|e'] eqn:Hr2; cbn in Hv; [discriminate|]. injection Hv as ->.
        exists [k0; k1], k2, []. split; [reflexivity|]. split; [|apply (flags_complaint E k1 k2 e [k0]); assumption].
        apply conds_no_complaint; [do 2 (constructor; [assumption|]); constructor|].
        destruct (regexp_value_spec E C (t_text k0) Hl) as [(v' & Hv' & _)|(_ & e' & He')]; [|congruence].
        cbn [conds]. unfold cond1. rewrite Hk0, Hk1. repeat split; try discriminate. intros _. exists v'. exact Hv'.
      + injection Hv as ->. exists [], k0, [k1; k2]. split; [reflexivity|]. split; [apply no_complaint_nil|]. eapply value_complaint; eassumption.
  Qed.

  (** Items with a quantifier. *)
  Lemma quant_complaint r p core l tq s e : Forall kid_ok core -> core <> [] -> quant_part l tq -> find_rule quantifier core = None ->
    (forall s, V (Node r (core ++ l)) s =
       rbind (VS (core ++ l) s) (fun s1 =>
       rbind (repetition E (core ++ l)) (fun '(mn, mx) =>
       rbind (pop_node s1) (fun '(c, s2) => Ok (build new_tree set_loc_tree C (Node r (core ++ l)) (p mn mx) [c] s2))))) ->
    (conds E (leaves (Node r (core ++ l))) -> forall s, exists s', V (Node r (core ++ l)) s = Ok s') ->
    V (Node r (core ++ l)) s = Raise e -> first_complaint (leaves (Node r (core ++ l))) (exn_msg e).
  Proof.
    intros Hk Hne Hq Hf Hvis Hsp Hv. cbn [leaves]. rewrite flat_map_app, (quant_part_leaves _ _ Hq).
    assert (Hg : good_end (flat_map leaves core)).
    { destruct (kids_end core Hk) as [H|H]; [|exact H]. exfalso. destruct core as [|c core]; [congruence|]. inversion Hk as [|? ? Hc _]; subst.
      apply (good_end_ne _ (kid_good c Hc)). cbn in H. apply app_eq_nil in H. apply H. }
    assert (Hql : forall s, VS l s = Ok s).
    { intros s0. pose proof (quant_part_visit E C unit qnode new_tree set_loc_tree (enableSourceLocations C) l tq s0 Hq) as H. rewrite at_loc_self in H. exact H. }
    assert (Hv' := Hv). rewrite Hvis, visit_ch_app in Hv'. destruct (VS core s) as [s1|e1] eqn:Hc; cbn [rbind] in Hv'.
    - rewrite Hql in Hv'. cbn [rbind] in Hv'.
      pose proof (kids_conds core Hk _ _ Hc) as Hcc.
      assert (Hrep : repetition E (core ++ l) = match l with [] => Ok (1, 1) | _ => processRepetition E (map Leaf tq) end).
      { unfold repetition. assert (Hff : find_rule quantifier (core ++ l) = find_rule quantifier l).
        { revert Hf. clear. unfold find_rule. induction core as [|c core IH]; [reflexivity|]. cbn [find app].
          destruct c as [k|r ch]; [exact IH|]. destruct (rule_eqb r quantifier); [discriminate|exact IH]. }
        rewrite Hff. destruct Hq as [[-> ->]|[-> [Hs Hok]]]; reflexivity. }
      assert (Hno : ~ conds E tq).
      { intros Hct. destruct (Hsp ltac:(cbn [leaves]; rewrite flat_map_app, (quant_part_leaves _ _ Hq); apply conds_app; auto) s) as (s' & Hs'). congruence. }
      destruct Hq as [[-> ->]|[-> [Hs Hok]]]; [exfalso; apply Hno; exact I|].
      apply first_r; [exact Hg| |].
      + apply conds_no_complaint; [|exact Hcc]. clear - Hk. induction Hk as [|c core Hc _ IH]; [constructor|]. cbn. apply Forall_app. split; [apply Hc|exact IH].
      + destruct (quant_outcome E tq Hs Hok) as [(mn & mx & _ & Hct & _)|(_ & e' & Hr)]; [contradiction|].
        rewrite Hrep, Hr in Hv'. cbn [rbind] in Hv'. injection Hv' as ->. apply repetition_complaint; assumption.
    - injection Hv' as ->. apply first_l. eapply kids_complaint; eassumption.
  Qed.

  (** *** All rules *)
  Definition kid (c : ptree) : Prop :=
    Forall tok_ok (leaves c) /\ match c with Leaf k => True | Node r ch => silent r = false -> kid_ok c end.
  Fixpoint loud (e : ebnf) : bool :=
    match e with
    | Tk l => forallb (fun k => negb (tt_in k [REGEXP; FWD_SLASH; INTEGER; Q_COMMA; REGEXP_FLAGS])) l
    | NT r => negb (silent r)
    | Sq a b | Al a b => loud a && loud b
    | Op a | Pl a | St a => loud a
    end.
  Definition loud_kid (c : ptree) : Prop := match c with Leaf k => plain_tok k | Node r _ => silent r = false end.
  Lemma loud_kids e x : derives e x -> loud e = true -> Forall loud_kid x.
  Proof.
    induction 1 as [l t Hin|r ch _ IH|a b x y _ IH1 _ IH2|a b x _ IH|a b x _ IH|e|e x _ IH|e x y _ IH1 _ IH2|e|e x y _ IH1 _ IH2];
      cbn [loud]; intros He; try (apply andb_true_iff in He; destruct He); rewrite ?Forall_app; auto.
    - constructor; [|constructor]. cbn. rewrite forallb_forall in He. specialize (He _ Hin). apply negb_true_iff in He.
      unfold plain_tok. intros Hx. apply tt_in_spec in Hx. congruence.
    - constructor; [|constructor]. cbn. apply negb_true_iff. exact He.
  Qed.
  Lemma loud_ok e x : derives e x -> loud e = true -> Forall kid x -> Forall kid_ok x.
  Proof.
    intros Hd Hl Hk. pose proof (loud_kids e x Hd Hl) as H. rewrite Forall_forall in *. intros c Hc. specialize (Hk c Hc). specialize (H c Hc).
    destruct c as [k|r ch]; [split; [apply Hk|exact H]|]. apply Hk. exact H.
  Qed.
  Definition built (r : rule) : bool :=
    match r with regexp | query_simple | query_group | attribute | within_part_simple => false | _ => negb (silent r) end.
  Lemma built_loud r : built r = true -> loud (body r) = true.
  Proof. destruct r; try discriminate; reflexivity. Qed.

  Lemma rule_complaint r ch s e : silent r = false -> derives (body r) ch -> Forall tok_ok (flat_map leaves ch) -> Forall kid ch ->
    V (Node r ch) s = Raise e -> first_complaint (leaves (Node r ch)) (exn_msg e).
  Proof.
    intros Hs Hd Hok Hk Hv. pose proof (derives_spec E C _ _ Hd Hok) as Hcs.
    pose proof (spec_outcome r _ Hs (rule_spec E C r ch Hd Hcs)) as (Hg & Hc1 & Hc2).
    destruct (built r) eqn:Hb.
    - apply (node_complaint r ch s e); try exact Hv; try exact Hc2; try (intros ->; discriminate Hb); try exact Hs.
      + eapply loud_ok; [exact Hd|apply built_loud; exact Hb|exact Hk].
      + intros ->. cbn [body] in Hd. inv_derives. unfold has_token, find_token. cbn [app find].
        match goal with H : In (t_type ?o) _ |- _ => destruct H as [H|[H|[]]]; rewrite <- H; [left|right]; reflexivity end.
    - destruct r; try discriminate Hb; try discriminate Hs.
      + (* group *)
        assert (Hd0 := Hd). cbn [body] in Hd. inversion Hd as [| |? ? x1 x2 H1 H2| | | | | | |]; subst; clear Hd.
        inversion H2 as [| |? ? x3 x4 H3 H4| | | | | | |]; subst.
        inversion H4 as [| |? ? x5 x6 H5 H6| | | | | | |]; subst.
        apply Forall_app in Hcs. destruct Hcs as [_ Hcs]. apply Forall_app in Hcs. destruct Hcs as [_ Hcs]. apply Forall_app in Hcs. destruct Hcs as [_ Hcs].
        destruct (op_quant E C x6 H6 Hcs) as (tq & Hq).
        replace (x1 ++ x3 ++ x5 ++ x6) with ((x1 ++ x3 ++ x5) ++ x6) in * by (rewrite <- !app_assoc; reflexivity).
        apply Forall_app in Hk. destruct Hk as [Hk _].
        assert (Hk' : Forall kid_ok (x1 ++ x3 ++ x5)).
        { apply (loud_ok (Tk [L_PAREN] ;; (NT query_disjunction \/? NT query_sequence) ;; Tk [R_PAREN])); [|reflexivity|exact Hk].
          constructor; [exact H1|]. constructor; assumption. }
        apply (quant_complaint query_group PQGroup (x1 ++ x3 ++ x5) x6 tq s e); try assumption.
        * inversion H1; subst. discriminate.
        * clear - H1 H3 H5. inv_derives; reflexivity.
        * reflexivity.
      + (* simple *)
        assert (Hd0 := Hd). cbn [body] in Hd. inversion Hd as [| |? ? x1 x2 H1 H2| | | | | | |]; subst; clear Hd.
        apply Forall_app in Hcs. destruct Hcs as [_ Hcs]. destruct (op_quant E C x2 H2 Hcs) as (tq & Hq).
        apply Forall_app in Hk. destruct Hk as [Hk _].
        assert (Hk' : Forall kid_ok x1) by (eapply loud_ok; [exact H1|reflexivity|exact Hk]).
        apply (quant_complaint query_simple PSegment x1 x2 tq s e); try assumption.
        * intros ->. inversion H1; subst; match goal with H : derives (NT _) [] |- _ => inversion H end.
        * clear - H1. inv_derives; reflexivity.
        * reflexivity.
      + (* within_part_simple *)
        exfalso. cbn [body] in Hd. inversion Hd; subst. in1. destruct (Hc2 ltac:(cbn; apply conds_one; rewrite Ht; cbn; intuition discriminate) s) as (s' & Hs'). congruence.
      + (* attribute *)
        exfalso. pose proof (rule_spec E C attribute ch Hd Hcs) as (_ & Hc & _). destruct (Hc2 Hc s) as (s' & Hs'). congruence.
      + apply (regexp_complaint ch s e); assumption.
  Qed.
  Lemma derives_kid e x : derives e x -> Forall tok_ok (flat_map leaves x) -> Forall kid x.
  Proof.
    induction 1 as [l t Hin|r ch Hd IH|a b x y _ IH1 _ IH2|a b x _ IH|a b x _ IH|e|e x _ IH|e x y _ IH1 _ IH2|e|e x y _ IH1 _ IH2];
      rewrite ?flat_map_app; intros Ht; rewrite ?Forall_app in *; try match type of Ht with _ /\ _ => destruct Ht end; auto.
    - cbn in Ht. constructor; [|constructor]. split; [exact Ht|exact I].
    - cbn in Ht. rewrite app_nil_r in Ht. constructor; [|constructor]. split; [exact Ht|]. intros Hs.
      split; [exact Ht|]. destruct (spec_outcome r _ Hs (rule_spec E C r ch Hd (derives_spec E C _ _ Hd Ht))) as (A & B & D).
      split; [exact A|]. split; [exact B|]. split; [exact D|]. intros s e. apply rule_complaint; auto.
  Qed.

  Theorem query_complaint t e : parse_tree query t -> Forall tok_ok (leaves t) -> build_tree E C t = Raise e ->
    first_complaint (leaves t) (exn_msg e).
  Proof.
    intros Hp Ht Hb. pose proof (derives_kid _ _ Hp) as H. cbn in H. rewrite app_nil_r in H. specialize (H Ht). inversion H as [|? ? Hk _]; subst.
    inversion Hp; subst. destruct Hk as [_ Hk]. specialize (Hk eq_refl). destruct Hk as (_ & Hg & Hc1 & Hc2 & Hc3).
    pose proof (query_spec E C _ Hp Ht) as [_ [(q & _ & Hc & Hy)|(_ & e' & He)]].
    - exfalso. unfold build_tree, run_builder in Hb. rewrite at_self, Hy in Hb. destruct (alloc _ _ _ _ _). discriminate Hb.
    - unfold build_tree, run_builder in Hb. rewrite at_self, He in Hb. cbn in Hb. injection Hb as ->.
      apply (Hc3 ([], tt)). rewrite at_self. apply He.
  Qed.
End Rules.
