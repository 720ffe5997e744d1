(** C77: the shape of a tree depends on the kinds of the tokens only. *)
From Coq Require Import String.
From Verif Require Import Base Regex LexRules Lexer Grammar Antlr Ast Builder Parser ModelTests LexSpec LitSpec GramSpec GramFacts ValueSpec
  SpellSpec BuilderFacts ParseSpec ParseFacts EvFacts SimFacts MeanFacts LayoutSpec LayoutFacts PropsParse PropsRead PropsLayout ShapeSpec.
Local Open Scope Z_scope.

Section Shapes.
  Variables (f g : Z -> Z) (E E' : penv) (C : pcfg).
  Notation sh := (same_shape f g).
  Lemma node_shape r t t' ch ch' qs qs' n n' : fromContext t' = option_map (reloc f g) (fromContext t) ->
    (find_rule within_part ch = None <-> find_rule within_part ch' = None) -> List.length ch = List.length ch' ->
    has_token OPERATOR_EQ ch = has_token OPERATOR_EQ ch' ->
    (forall l l', qs = Some l -> qs' = Some l' -> Forall2 sh l l') ->
    ev_node E C r t ch qs = Some n -> ev_node E' C r t' ch' qs' = Some n' -> sh n n'.
  Proof.
    intros HL HW Hlen HT HQ Hn Hn'.
    assert (L : forall p p' l l', qs = Some l -> qs' = Some l' -> class_of p = class_of p' -> operator_of p = operator_of p' -> sh (QN p (fromContext t) l) (QN p' (fromContext t') l')).
    { intros p p' l l' H H' Hc Ho. rewrite HL. apply ss_node; auto. }
    assert (N : forall p p', class_of p = class_of p' -> operator_of p = operator_of p' -> sh (QN p (fromContext t) []) (QN p' (fromContext t') [])).
    { intros p p' Hc Ho. rewrite HL. apply ss_node; auto. }
    assert (O : forall m m', qs = Some [m] -> qs' = Some [m'] -> sh m m').
    { intros m m' H H'. specialize (HQ _ _ H H'). inversion HQ; assumption. }
    destruct r; cbn [ev_node] in Hn, Hn'; try discriminate Hn;
      repeat match goal with
      | H : option_map _ ?x = Some _ |- _ => destruct x eqn:?; cbn [option_map] in H; [|discriminate H]
      | H : match ?x with _ => _ end = Some _ |- _ => destruct x eqn:?; try discriminate H
      end;
      try (injection Hn as <-); try (injection Hn' as <-);
      first [ eapply L; solve [eauto] | eapply N; solve [eauto | unfold mk_expression; cbn; congruence] | eapply O; solve [eauto] | exfalso; solve [destruct HW as [HW1 HW2]; first [specialize (HW1 eq_refl); discriminate HW1|specialize (HW2 eq_refl); discriminate HW2]] | idtac ].
    all: try (exfalso; rewrite <- Hlen in *; congruence).
    all: try (apply N; [reflexivity|unfold mk_expression; cbn; rewrite HT; reflexivity]).
  Qed.

  Definition shapes1 (c : ptree) : Prop :=
    forall c' n n', shape c = shape c' -> Forall2 (matches f g) (leaves c) (leaves c') -> ev E C c = Some n -> ev E' C c' = Some n' -> sh n n'.
  Lemma evs_shapes ch : Forall shapes1 ch -> forall ch' l l', map shape ch = map shape ch' -> Forall2 (matches f g) (flat_map leaves ch) (flat_map leaves ch') ->
    evs E C ch = Some l -> evs E' C ch' = Some l' -> Forall2 sh l l'.
  Proof.
    induction 1 as [|c ch Hc _ IH]; intros ch' l l' Hs HM Hl Hl'.
    - apply shape_nil in Hs. subst ch'. cbn [evs] in Hl, Hl'. injection Hl as <-. injection Hl' as <-. constructor.
    - apply shape_cons in Hs. destruct Hs as (c' & r' & -> & Hs1 & Hs2). cbn [flat_map] in HM. destruct (forall2_split _ _ _ _ _ (shape_len c c' Hs1) HM) as [M1 M2].
      destruct c as [k|r cc].
      + pose proof Hs1 as Hs0. apply shape_leaf in Hs0. destruct Hs0 as (k' & -> & _). cbn [evs] in Hl, Hl'. eapply IH; eassumption.
      + pose proof Hs1 as Hs0. apply shape_node in Hs0. destruct Hs0 as (cc' & -> & Hcc). cbn [evs] in Hl, Hl'. destruct (valueless r); [eapply IH; eassumption|].
        destruct (ev E C (Node r cc)) as [n|] eqn:En; [|discriminate Hl]. destruct (evs E C ch) as [ns|] eqn:Ens; [|discriminate Hl]. injection Hl as <-.
        destruct (ev E' C (Node r cc')) as [n'|] eqn:En'; [|discriminate Hl']. destruct (evs E' C r') as [ns'|] eqn:Ens'; [|discriminate Hl']. injection Hl' as <-.
        constructor; [exact (Hc (Node r cc') n n' Hs1 M1 En En')|exact (IH r' ns ns' Hs2 M2 eq_refl Ens')].
  Qed.
  Lemma derives_shapes e x : derives e x -> Forall shapes1 x.
  Proof.
    induction 1 as [l t Hl|r ch Hd IH|a b x y _ IHa _ IHb|a b x _ IH|a b x _ IH|e|e x _ IH|e x y _ IHa _ IHb|e|e x y _ IHa _ IHb]; auto; try (apply Forall_app; auto).
    - constructor; [|constructor]. intros c' n n' _ _ Hn. discriminate Hn.
    - constructor; [|constructor]. intros c' n n' Hs HM Hn Hn'. pose proof Hs as Hs0. apply shape_node in Hs0. destruct Hs0 as (ch' & -> & Hch). rewrite ev_eq in Hn, Hn'.
      refine (node_shape r (Node r ch) (Node r ch') ch ch' _ _ n n' (ctx_locs f g r ch (Node r ch') Hd HM) _ _ (has_token_shape _ _ _ Hch) _ Hn Hn').
      + pose proof (find_rule_shape within_part ch ch' Hch) as HF. destruct (find_rule within_part ch), (find_rule within_part ch'); try (split; congruence); cbn in HF; try contradiction; try discriminate HF; destruct HF; try discriminate.
      + rewrite <- (map_length shape ch), Hch, map_length. reflexivity.
      + intros l l' Hl Hl'. cbn [leaves] in HM. exact (evs_shapes ch IH ch' l l' Hch HM Hl Hl').
  Qed.
End Shapes.

Lemma shape_erase f g n n' : same_shape f g n n' -> same_shape f g (erase n) (erase n').
Proof.
  revert n'. induction n as [p l ch IH] using qnode_ind'. intros n' H. inversion H as [p0 p' l0 c c' Hc Ho Hf]; subst; cbn [erase map].
  apply (ss_node f g p p' None); [assumption..|].
  clear H. revert c' Hf. induction IH as [|a r Ha _ IHr]; intros c' Hf; inversion Hf; subst; cbn [map]; constructor; auto.
Qed.

(** Two accepted queries whose tokens are of the same kinds, one by one, have trees of the same shape, and every node covers the corresponding tokens. *)
Theorem C77_shape : forall V V' P q q' n n' f g, env_ok V -> env_ok V' ->
  parse V P q = Ok n -> parse V' P q' = Ok n' -> map t_type (tokens q) = map t_type (tokens q') ->
  (forall i t t', nth_error (lx_tokens (lexemes q)) i = Some t -> nth_error (lx_tokens (lexemes q')) i = Some t' ->
    f (t_start t) = t_start t' /\ g (t_stop t + 1) = t_stop t' + 1) ->
  same_shape f g n n'.
Proof.
  intros V V' P q q' n n' f g HV HV' Hp Hp' Ht Hfg.
  destruct (parse_ev V P q n HV Hp) as (t & m & Hq & Hpt & Hl & Hm & _ & ->). destruct (parse_ev V' P q' n' HV' Hp') as (t' & m' & Hq' & _ & Hl' & Hm' & _ & ->).
  pose proof (antlr_query_shape (tokens q)) as A. rewrite (types_blank _ _ Ht), antlr_query_shape, Hq, Hq' in A. injection A as A.
  assert (HM : Forall2 (matches f g) (leaves t) (leaves t')).
  { rewrite Hl, Hl'. unfold tokens in Ht |- *. rewrite !map_app in Ht. cbn [map] in Ht. apply app_inj_tail in Ht. destruct Ht as [Ht _]. apply Forall2_app; [|constructor; [split; [reflexivity|intros Z; exfalso; apply Z; reflexivity]|constructor]].
    revert Hfg Ht. generalize (lx_tokens (lexemes q)) (lx_tokens (lexemes q')). clear. intros l. induction l as [|a l IH]; intros [|a' l'] H Ht; try discriminate Ht; constructor.
    - cbn [map] in Ht. injection Ht as Ht _. split; [exact Ht|]. intros _. apply (H 0%nat); reflexivity.
    - cbn [map] in Ht. injection Ht as _ Ht. apply IH; [|exact Ht]. intros i x x' Hx Hx'. apply (H (S i)); assumption. }
  pose proof (derives_shapes f g (e_penv V) (e_penv V') (qp_cfg P) _ _ Hpt) as HD. apply Forall_inv in HD. specialize (HD t' m m' (eq_sym A) HM Hm Hm').
  destruct (enableSourceLocations (qp_cfg P)); cbn [with_locs]; [exact HD|]. apply shape_erase, HD.
Qed.
(** There always are such [f] and [g]. *)
Theorem C77_same_shape : forall V V' P q q' n n', env_ok V -> env_ok V' ->
  parse V P q = Ok n -> parse V' P q' = Ok n' -> map t_type (tokens q) = map t_type (tokens q') ->
  exists f g : Z -> Z, (forall i t t', nth_error (lx_tokens (lexemes q)) i = Some t -> nth_error (lx_tokens (lexemes q')) i = Some t' ->
    f (t_start t) = t_start t' /\ g (t_stop t + 1) = t_stop t' + 1) /\ same_shape f g n n'.
Proof.
  intros V V' P q q' n n' HV HV' Hp Hp' Ht. destruct (C70_maps q q') as (f & g & Hfg). exists f, g. split; [exact Hfg|].
  exact (C77_shape V V' P q q' n n' f g HV HV' Hp Hp' Ht Hfg).
Qed.

(** Whether a text is a query depends on the kinds of its tokens and on the texts of its literals, flags and bounds, not on its names or its layout. *)
Theorem C77_accepted : forall V V' P q q' n, env_ok V -> env_ok V' ->
  parse V P q = Ok n -> lex_errors q' = [] -> map t_type (tokens q) = map t_type (tokens q') ->
  (exists n', parse V' P q' = Ok n') <-> texts_ok (e_penv V') (tokens q').
Proof.
  intros V V' P q q' n HV HV' Hp He Ht. destruct (parse_ok_inv V P q n HV Hp) as (m & [[_ Hc] _] & _).
  assert (Hc' : conforms (tokens q')) by (apply in_grammar_conforms in Hc; apply in_grammar_conforms; rewrite <- Hc; unfold in_grammar; rewrite Ht, <- (map_length t_type (tokens q)), Ht, map_length; reflexivity).
  rewrite (C02_accepted_iff V' P q' HV'). split; [tauto|]. intros Hx. auto.
Qed.

(** Two queries of the same kinds of tokens that differ in names, values, flags, bounds and layout. *)
Definition kinds1 : pystr := u "[pos = 'N.*'/i & !lemma = 'b']{2,3} 'c' within s".
Definition kinds2 : pystr := u "[ word  =  ""x""/c&!mood=""yy"" ]{1,7}""zz""within  paragraph".
Example C77_witness : exists n n', parse some_env (new_parser (default_cfg true)) kinds1 = Ok n /\
  parse some_env (new_parser (default_cfg true)) kinds2 = Ok n' /\ map t_type (tokens kinds1) = map t_type (tokens kinds2) /\ erase n <> erase n'.
Proof. eexists. eexists. split; [vm_compute; reflexivity|]. split; [vm_compute; reflexivity|]. split; [vm_compute; reflexivity|]. cbn. discriminate. Qed.
Print Assumptions C77_shape. Print Assumptions C77_same_shape. Print Assumptions C77_accepted.
Lemma shape_same t : forall t', shape t = shape t' -> same_ptree t t'.
Proof.
  induction t as [k|r ch IH] using ptree_ind'; intros t' H.
  - apply shape_leaf in H. destruct H as (k' & -> & Ht). constructor. exact Ht.
  - apply shape_node in H. destruct H as (ch' & -> & H). constructor. revert ch' H. induction IH as [|c ch Hc _ IHl]; intros ch' H.
    + apply shape_nil in H. subst. constructor.
    + apply shape_cons in H. destruct H as (c' & r' & -> & H1 & H2). constructor; auto.
Qed.
(** The low-level parse trees of texts with tokens of the same kinds: one text parses exactly if the other does, and the trees are the same rule by rule.
    (Lexical errors do not make [antlr_parse] fail.) *)
Theorem C77_antlr : forall q q', map t_type (tokens q) = map t_type (tokens q') ->
  (forall t, antlr_parse q = Ok t -> exists t', antlr_parse q' = Ok t' /\ same_ptree t t') /\
  ((exists e, antlr_parse q = Raise e) -> exists e, antlr_parse q' = Raise e).
Proof.
  intros q q' Ht. unfold antlr_parse. pose proof (antlr_query_shape (tokens q)) as A. rewrite (types_blank _ _ Ht), antlr_query_shape in A.
  destruct (antlr_query (tokens q)) as [t|], (antlr_query (tokens q')) as [t'|]; try discriminate A.
  - injection A as A. split; [|intros (e & H); discriminate H]. intros t0 H. injection H as <-. exists t'. split; [reflexivity|]. apply shape_same. symmetry. exact A.
  - split; [intros t H; discriminate H|]. eauto.
Qed.
Example C77_witness_antlr : (exists t t', antlr_parse kinds1 = Ok t /\ antlr_parse kinds2 = Ok t' /\ t <> t') /\
  (exists e, antlr_parse (u "[pos = ") = Raise e) /\ map t_type (tokens (u "[pos = ")) = map t_type (tokens (u "[ word=")).
Proof. split; [eexists; eexists; split; [vm_compute; reflexivity|]; split; [vm_compute; reflexivity|discriminate]|]. split; [eexists; vm_compute; reflexivity|vm_compute; reflexivity]. Qed.
Print Assumptions C77_antlr.
