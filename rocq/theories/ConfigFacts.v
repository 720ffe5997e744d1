(** Effect of the parser settings. *)
From Coq Require Import String.
From Verif Require Import Base Regex LexRules Lexer Grammar Antlr Ast Builder Parser LexSpec LitSpec LexRuleFacts LexThms LexWs
  GramSpec GramFacts ValueSpec ValueFacts SpellSpec BuilderFacts BuilderRules ParseSpec ParseFacts EvFacts TreeSpec TreeFacts SimFacts TokenSpec TokenFacts ConfigSpec.
Local Open Scope Z_scope.

(** ** Normalisation *)
Section Norm.
  Variables (E : penv) (C C0 : pcfg).
  Hypotheses (H1 : default_identifier C = default_identifier C0) (H2 : default_operator C = default_operator C0)
    (H3 : unicode_normalization_form C0 = None).
  Notation f := (normalised E C).
  Lemma regexp_value_norm w : regexp_value E C w = rmap f (regexp_value E C0 w).
  Proof.
    unfold regexp_value. rewrite H3. destruct (stripQuotes w) as [r|e]; [|reflexivity]. cbn [rbind].
    destruct (if char_in 92 r then unescapeString E r else Ok r) as [v|e]; [|reflexivity]. reflexivity.
  Qed.
  Lemma ev_regexp_norm ch : ev_regexp E C ch = option_map (fun p => (f (fst p), snd p)) (ev_regexp E C0 ch).
  Proof.
    unfold ev_regexp. destruct (find_rule regexp ch) as [[k|r cr]|]; try reflexivity.
    destruct (find_rule regexp_pattern cr); [|reflexivity]. rewrite regexp_value_norm.
    destruct (regexp_value E C0 (get_text p)); [|reflexivity]. cbn [rmap].
    destruct (match find_rule regexp_flag cr with Some f0 => regexp_flags (get_text f0) | None => Ok no_flags end); reflexivity.
  Qed.
  Lemma ev_norm t : ev E C t = option_map (map_regex f) (ev E C0 t).
  Proof.
    induction t as [k|r ch IH] using ptree_ind'; [reflexivity|]. rewrite !ev_eq.
    assert (Hl : evs E C ch = option_map (map (map_regex f)) (evs E C0 ch)).
    { induction IH as [|x l Hx _ IH']; [reflexivity|]. destruct x as [k|r' cc]; cbn [evs]; rewrite IH'; [reflexivity|].
      destruct (valueless r'); [reflexivity|]. rewrite Hx. destruct (ev E C0 (Node r' cc)); [|reflexivity].
      destruct (evs E C0 l); reflexivity. }
    rewrite Hl. generalize (evs E C0 ch) as qs. generalize (Node r ch) as t. intros t qs. clear IH Hl.
    destruct r; cbn [ev_node]; rewrite ?ev_regexp_norm, ?H1, ?H2; try reflexivity.
    all: try (destruct (ev_attribute ch) as [[q i]|]; [|reflexivity]; destruct (ev_regexp E C0 ch) as [[v fl]|]; reflexivity).
    all: try (destruct (ev_regexp E C0 ch) as [[v fl]|]; reflexivity).
    all: try (destruct qs as [[|a [|b [|c l]]]|]; cbn [option_map map]; reflexivity).
    all: try (destruct (find_rule within_part ch); destruct qs as [[|a [|b [|c l]]]|]; cbn [option_map map map_regex map_regex_payload]; reflexivity).
    all: try (destruct (repetition E ch) as [[mn mx]|]; destruct qs as [[|a [|b [|c l]]]|]; cbn [option_map map map_regex map_regex_payload]; reflexivity).
    all: try (destruct (List.length ch =? 2)%nat; destruct qs as [[|a [|b [|c l]]]|]; reflexivity).
    all: destruct ch as [|c ch]; [reflexivity|]; destruct (within_scope (get_text c)); reflexivity.
  Qed.
End Norm.

(** ** Defaults *)
Lemma first_char q t c w : In t (lx_tokens (lexemes q)) -> t_text t = c :: w ->
  slice q (t_start t) (t_start t + 1) = [c].
Proof.
  intros Hin Ht. destruct (token_at q t Hin) as (b & a & Hq & Hs & _). rewrite Ht in Hq. rewrite Hq, Hs.
  exact (slice_mid b [c] (w ++ a)).
Qed.
Lemma regexp_quote q t : In t (lx_tokens (lexemes q)) -> t_type t = REGEXP ->
  slice q (t_start t) (t_start t + 1) = [34%N] \/ slice q (t_start t) (t_start t + 1) = [39%N].
Proof.
  intros Hin Ht. pose proof (proj1 (token_text_ok q t Hin)) as Hx. rewrite Ht in Hx.
  destruct Hx as (k & es & Hk & _ & Hw). unfold lit_text in Hw. rewrite (first_char q t _ _ Hin Hw). destruct Hk as [->| ->]; auto.
Qed.
Lemma name_not_quote q t : In t (lx_tokens (lexemes q)) -> name_tok t ->
  ~ (slice q (t_start t) (t_start t + 1) = [34%N] \/ slice q (t_start t) (t_start t + 1) = [39%N]).
Proof.
  intros Hin Hn. destruct (token_at q t Hin) as (b & a & _ & _ & _ & _ & _ & _ & _ & _ & Hf & _).
  apply first_rule_preferred in Hf. destruct Hf as [Hs _].
  assert (H : exists c w, t_text t = c :: w /\ c <> 34%N /\ c <> 39%N).
  { unfold name_tok in Hn. cbn [In] in Hn. destruct Hn as [Hn|[Hn|[Hn|[Hn|[]]]]]; rewrite <- Hn in Hs; cbn [spelled] in Hs.
    - destruct Hs as (c & w' & -> & Hc & _). exists c, w'. unfold letter in Hc. split; [reflexivity|lia].
    - rewrite Hs. eexists _, _. split; [reflexivity|]. split; discriminate.
    - destruct Hs as (sc & Hs). inversion Hs; (eexists _, _; split; [reflexivity|]; split; discriminate).
    - destruct Hs as [Hne Hs]. destruct (t_text t) as [|c w]; [contradiction|]. inversion Hs as [|? ? Hc _]; subst.
      exists c, w. split; [reflexivity|]. split; intros ->; apply Hc; reflexivity. }
  destruct H as (c & w & Ht & H1 & H2). rewrite (first_char q t c w Hin Ht). intros [H|H]; injection H as H; contradiction.
Qed.

Section Defaults.
  Variables (E : penv) (C C' : pcfg) (q : pystr).
  Hypothesis H3 : unicode_normalization_form C = unicode_normalization_form C'.
  Lemma ev_regexp_defaults ch : ev_regexp E C ch = ev_regexp E C' ch.
  Proof.
    unfold ev_regexp. destruct (find_rule regexp ch) as [[k|r cr]|]; try reflexivity.
    destruct (find_rule regexp_pattern cr); [|reflexivity]. unfold regexp_value. rewrite H3. reflexivity.
  Qed.
  Notation sbd := (same_but_defaults q C C').
  Definition opt2 {A B} (R : A -> B -> Prop) (x : option A) (y : option B) : Prop :=
    match x, y with Some a, Some b => R a b | None, None => True | _, _ => False end.
  Definition in_query (k : token) : Prop := In k (lx_tokens (lexemes q)) \/ t_type k = EOF.
  Definition dok (t : ptree) : Prop :=
    match t with Leaf _ => True | Node r ch => if valueless r then True else opt2 sbd (ev E C t) (ev E C' t) end.
  Lemma evs_defaults ch : Forall dok ch -> opt2 (Forall2 sbd) (evs E C ch) (evs E C' ch).
  Proof.
    induction 1 as [|x l Hx _ IH]; [constructor|]. destruct x as [k|r cc]; cbn [evs]; [exact IH|]. cbn [dok] in Hx.
    destruct (valueless r); [exact IH|]. destruct (ev E C (Node r cc)), (ev E C' (Node r cc)); cbn in Hx; try contradiction; [|exact I].
    destruct (evs E C l), (evs E C' l); cbn in IH |- *; try contradiction; [|exact I]. constructor; assumption.
  Qed.
  Lemma fromContext_first k r ch rest : leaves (Node r ch) = k :: rest -> In k (lx_tokens (lexemes q)) ->
    exists e, fromContext (Node r ch) = Some (mkLoc (t_start k) e).
  Proof.
    intros Hl Hk. unfold fromContext, ctx_start, ctx_stop. rewrite Hl. cbn [hd_error]. cbn [filter].
    assert (Hne : ttype_eqb (t_type k) EOF = false).
    { unfold ttype_eqb. destruct (ttype_eq_dec (t_type k) EOF) as [He|]; [|reflexivity]. exfalso.
      pose proof (proj1 (token_text_ok q k Hk)) as Hx. rewrite He in Hx. exact Hx. }
    rewrite Hne. cbn [negb rev]. destruct (rev _) as [|x l]; cbn; eauto.
  Qed.
  Lemma implicit_first ch : derives (body query_implicit) ch -> exists k rest, leaves (Node query_implicit ch) = k :: rest /\ t_type k = REGEXP.
  Proof.
    cbn [body]. intros H. inversion H as [|r x HA| | | | | | | |]; subst. cbn [body] in HA. inversion HA as [| |a b x1 x2 Ha Hb| | | | | | |]; subst.
    inversion Ha as [|r x HB| | | | | | | |]; subst. cbn [body] in HB. inversion HB as [l k Hk| | | | | | | | |]; subst. destruct Hk as [Hk|[]].
    exists k. eexists. split; [reflexivity|symmetry; exact Hk].
  Qed.
  Lemma basic_first ch : derives (body expression_basic) ch -> exists k rest, leaves (Node expression_basic ch) = k :: rest /\ name_tok k.
  Proof.
    cbn [body]. intros H. inversion H as [| |a b x y Ha _| | | | | | |]; subst. inversion Ha as [|r x0 HA| | | | | | | |]; subst. cbn [body] in HA.
    inversion HA as [| |a b x1 x2 Hq Hi| | | | | | |]; subst. inversion Hq; subst.
    - inversion Hi as [|r x0 HB| | | | | | | |]; subst. cbn [body] in HB. inversion HB; subst. eexists _, _. split; [reflexivity|assumption].
    - match goal with Hd : derives (Sq _ _) _ |- _ => inversion Hd as [| |a' b' y1 y2 Hq' _| | | | | | |]; subst end.
      inversion Hq' as [|r x0 HB| | | | | | | |]; subst. cbn [body] in HB. inversion HB; subst. eexists _, _. split; [reflexivity|assumption].
  Qed.
  Lemma node_defaults r ch : derives (body r) ch -> Forall in_query (leaves (Node r ch)) -> Forall dok ch -> dok (Node r ch).
  Proof.
    intros Hd Hq Hch. apply evs_defaults in Hch. cbn [dok]. destruct (valueless r) eqn:Hv; [exact I|]. rewrite !ev_eq.
    destruct r; try discriminate Hv; clear Hv; cbn [ev_node]; rewrite ?ev_regexp_defaults.
    all: try (destruct (implicit_first ch Hd) as (k & rest & Hl & Hk); rewrite Hl in Hq; inversion Hq as [|? ? [Hin|He] _]; subst; [|congruence];
      destruct (fromContext_first k _ _ _ Hl Hin) as (e & ->); destruct (ev_regexp E C' ch) as [[v fl]|]; [|exact I];
      apply sbd_bare; apply regexp_quote; assumption).
    all: try (destruct (basic_first ch Hd) as (k & rest & Hl & Hk); rewrite Hl in Hq; inversion Hq as [|? ? [Hin|He] _]; subst;
      [|unfold name_tok in Hk; rewrite He in Hk; cbn in Hk; intuition discriminate];
      destruct (fromContext_first k _ _ _ Hl Hin) as (e & ->); destruct (ev_attribute ch) as [[qq i]|]; [|exact I];
      destruct (ev_regexp E C' ch) as [[v fl]|]; [|exact I];
      apply sbd_node; [intros _; eexists; split; [reflexivity|]; apply name_not_quote; assumption|constructor]).
    all: destruct (evs E C ch) as [l|], (evs E C' ch) as [l'|]; cbn [opt2] in Hch; try contradiction; cbn [option_map].
    all: try (apply sbd_node; [discriminate|exact Hch]).
    all: try (destruct ch as [|c ch]; [exact I|]; destruct (within_scope (get_text c)); [apply sbd_node; [discriminate|constructor]|exact I]).
    all: try (destruct (List.length ch =? 2)%nat; [apply sbd_node; [discriminate|constructor]|]).
    all: try exact I.
    all: try (destruct Hch as [|a a' l1 l1' Ha [|b b' l2 l2' Hb [|c c' l3 l3' Hc Hl]]]).
    all: try (destruct (find_rule within_part ch)).
    all: try (destruct (repetition E ch) as [[mn mx]|]).
    all: try exact I.
    all: try assumption.
    all: apply sbd_node; [discriminate|auto].
  Qed.
  Lemma derives_defaults e x : derives e x -> Forall in_query (flat_map leaves x) -> Forall dok x.
  Proof.
    induction 1 as [l t Hin|r ch Hd IH|a b x y _ IH1 _ IH2|a b x _ IH|a b x _ IH|e|e x _ IH|e x y _ IH1 _ IH2|e|e x y _ IH1 _ IH2];
      rewrite ?flat_map_app; intros Ht; rewrite ?Forall_app in *.
    - constructor; [exact I|constructor].
    - cbn [flat_map] in Ht. rewrite app_nil_r in Ht. constructor; [|constructor]. apply node_defaults; auto.
    - destruct Ht. auto.
    - auto.
    - auto.
    - constructor.
    - auto.
    - destruct Ht. auto.
    - constructor.
    - destruct Ht. auto.
  Qed.
  Lemma query_defaults t : parse_tree query t -> leaves t = tokens q -> opt2 sbd (ev E C t) (ev E C' t).
  Proof.
    intros Hp Hl. pose proof (derives_defaults _ _ Hp) as H. cbn [flat_map] in H. rewrite app_nil_r, Hl in H.
    assert (Hin : Forall in_query (tokens q)).
    { apply Forall_forall. intros k Hk. unfold tokens in Hk. apply in_app_or in Hk. destruct Hk as [Hk|[<-|[]]]; [left; exact Hk|right; reflexivity]. }
    specialize (H Hin). inversion H; subst. inversion Hp; subst. assumption.
  Qed.
End Defaults.
