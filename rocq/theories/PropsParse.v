(** Properties C01, C02, C06, C07, C08: acceptance, literals. *)
From Coq Require Import String.
From Verif Require Import Base Regex LexRules Lexer Grammar Antlr Ast Builder Parser ModelTests LexSpec LitSpec LexRuleFacts LexThms LexWs
  GramSpec GramFacts ValueSpec ValueFacts SpellSpec BuilderFacts BuilderRules ParseSpec ParseFacts EvFacts SpellComplete.
Local Open Scope Z_scope.

(** The contract on ANTLR's error recovery is satisfiable. *)
Definition some_env : env :=
  mkEnv (mkPEnv (fun _ s => s) 4300 true) (fun q => [mkCall (Some (eof_token q)) 1 0 (u "no viable alternative")]).
Lemma some_env_ok : env_ok some_env.
Proof.
  intros q _. split.
  - eexists. split; [left; reflexivity|discriminate].
  - intros c [<-|[]]. right. exists (eof_token q). split; [apply in_or_app; right; left; reflexivity|reflexivity].
Qed.

(** C01.  [parse] returns a tree or raises QueryParserException, whatever the
    environment does; [can_parse] says which. *)
Theorem C01_parse_total : forall (V : env) (P : qparser) (q : pystr),
  (exists n, parse V P q = Ok n) \/ (exists m, parse V P q = Raise (QueryParserError m)).
Proof.
  intros V P q. unfold parse, parser_parse. cbn [snd]. destruct (parse_body _ V q) as [n|e]; [left; exists n; reflexivity|right; apply handle_qp].
Qed.
Theorem C01_can_parse : forall (V : env) (q : pystr),
  (can_parse V q = Ok true <-> exists n, parse V (new_parser (default_cfg true)) q = Ok n) /\
  (can_parse V q = Ok false <-> exists m, parse V (new_parser (default_cfg true)) q = Raise (QueryParserError m)).
Proof.
  intros V q. unfold can_parse, fcsql_parse. fold (parse V (new_parser (default_cfg true)) q).
  destruct (C01_parse_total V (new_parser (default_cfg true)) q) as [(n & ->)|(m & ->)]; split; split; intros H;
    first [discriminate|destruct H; discriminate|eauto].
Qed.

(** C02.  The exact acceptance condition. *)
Theorem C02_accepted_iff : forall (V : env) (P : qparser) (q : pystr), env_ok V ->
  (exists n, parse V P q = Ok n) <->
  (lex_errors q = [] /\ conforms (tokens q) /\ texts_ok (e_penv V) (tokens q)).
Proof.
  intros V P q HV. destruct (parse_outcome V P q HV) as [(n & [Hw Ht] & _ & _ & ->)|(Hn & m & ->)].
  - split; [intros _; destruct Hw; auto|eauto].
  - split; [intros (n & Hp); discriminate|]. intros (A & B & D). exfalso. apply Hn. split; [split; assumption|assumption].
Qed.
(** The same with the specification of meaning instead of the grammar: some tree
    is denoted by the tokens (and integers are within the digit limit). *)
Theorem C02_meaningful_iff : forall (V : env) (P : qparser) (q : pystr), env_ok V ->
  (exists n, parse V P q = Ok n) <->
  (lex_errors q = [] /\ (exists n, sp_query (e_penv V) (qp_cfg P) (tokens q) n) /\
   forall t, In t (tokens q) -> t_type t = INTEGER -> int_ok (e_penv V) (t_text t)).
Proof.
  intros V P q HV. split.
  - intros (n & H). destruct (parse_ok_inv V P q n HV H) as (m & [[Hl _] Ht] & Hs & _). split; [exact Hl|].
    split; [eauto|]. apply Ht.
  - intros (Hl & (n & Hs) & Hi). apply (C02_accepted_iff V P q HV). split; [exact Hl|].
    split; [eapply spelled_conforms; exact Hs|eapply spelled_texts; eassumption].
Qed.
(** The returned tree is one the tokens denote. *)
Theorem C02_denoted : forall (V : env) (P : qparser) (q : pystr) (n : qnode), env_ok V -> parse V P q = Ok n ->
  exists m, sp_query (e_penv V) (qp_cfg P) (tokens q) m /\
    n = if enableSourceLocations (qp_cfg P) then m else erase m.
Proof. intros V P q n HV H. destruct (parse_ok_inv V P q n HV H) as (m & _ & Hs & ->). exists m. auto. Qed.

Example C02_witness_accept :
  exists n, parse some_env (new_parser (default_cfg true)) (u "[pos = 'N.*'/i & !lemma = 'b']{2,3} 'c' within s") = Ok n.
Proof. vm_compute. eauto. Qed.
Example C02_witness_reject :
  ~ exists n, parse some_env (new_parser (default_cfg true)) (u "'a'{3,2}") = Ok n.
Proof. vm_compute. intros (n & H). discriminate. Qed.

(** C06.  Any text can be searched literally. *)
Definition one_literal (k e : token) : ptree :=
  Node query [Node main_query [Node query_simple [Node query_implicit [Node regexp [Node regexp_pattern [Leaf k]]]]]; Leaf e].
Lemma antlr_one_literal k e : t_type k = REGEXP -> t_type e = EOF -> antlr_query [k; e] = Some (one_literal k e).
Proof. destruct k, e. cbn. intros -> ->. vm_compute. reflexivity. Qed.

Lemma parse_of_tree V P q t n : env_ok V -> lex_errors q = [] -> antlr_query (tokens q) = Some t ->
  ev (e_penv V) (qp_cfg P) t = Some n -> texts_ok (e_penv V) (tokens q) ->
  parse V P q = Ok (with_locs (enableSourceLocations (qp_cfg P)) n).
Proof.
  intros HV Hl Ht Hn Hx. assert (Hc : conforms (tokens q)).
  { apply in_grammar_conforms. unfold antlr_query in Ht. destruct (in_grammar (tokens q)); [reflexivity|discriminate]. }
  destruct (proj2 (C02_accepted_iff V P q HV)) as (m & Hm); [auto|]. rewrite Hm.
  destruct (parse_ev V P q m HV Hm) as (t' & m' & Ht' & _ & _ & He & _ & ->). congruence.
Qed.

Lemma parse_literal V P w v : env_ok V -> literal_means w v ->
  parse V P w = Ok (with_locs (enableSourceLocations (qp_cfg P))
    (QN (PSegment 1 1) (Some (mkLoc 0 (zlen w)))
       [QN (PExpr None (default_identifier (qp_cfg P)) (default_operator (qp_cfg P))
              (normalised (e_penv V) (qp_cfg P) v) None) (Some (mkLoc 0 (zlen w))) []])).
Proof.
  intros HV Hm. assert (Hlit : is_literal w) by (destruct Hm as (q & es & A & B & D & _); exists q, es; auto).
  set (k := mkTok REGEXP w 0 (zlen w - 1) 1 0).
  assert (Ht : tokens w = [k; eof_token w]) by (unfold tokens; rewrite (lexemes_literal w Hlit); reflexivity).
  apply (parse_of_tree V P w (one_literal k (eof_token w))).
  - exact HV.
  - unfold lex_errors. rewrite (lexemes_literal w Hlit). reflexivity.
  - rewrite Ht. apply antlr_one_literal; reflexivity.
  - destruct (regexp_value_spec (e_penv V) (qp_cfg P) w Hlit) as [(v' & Hv' & He)|[Hn _]]; [|exfalso; apply Hn; exists v; exact Hm].
    rewrite (literal_means_det _ _ _ Hv' Hm) in He. unfold one_literal.
    cbn -[regexp_value]. rewrite app_nil_r. rewrite He. cbn.
    unfold k. cbn. replace (zlen w - 1 + 1) with (zlen w) by lia. reflexivity.
  - rewrite Ht. apply texts_ok_conds. cbn [conds]. unfold cond1. cbn. repeat split; try discriminate. intros _. exists v. exact Hm.
Qed.

Theorem C06_quote_roundtrip : forall (V : env) (P : qparser) (s : pystr) (quote : N), env_ok V ->
  is_pystr s -> (quote = 34 \/ quote = 39)%N ->
  exists loc, parse V P (quote_text quote s) =
    Ok (QN (PSegment 1 1) loc
          [QN (PExpr None (default_identifier (qp_cfg P)) (default_operator (qp_cfg P))
                 (normalised (e_penv V) (qp_cfg P) s) None) loc []]).
Proof.
  intros V P s quote HV Hs Hq. assert (Hm : literal_means (quote_text quote s) s).
  { exists quote, (map (quote_elem quote) s). split; [exact Hq|]. split; [apply quote_elems_ok; assumption|].
    split; [apply quote_text_lit; exact Hq|apply quote_elems_value; exact Hq]. }
  rewrite (parse_literal V P _ _ HV Hm). unfold with_locs. destruct (enableSourceLocations (qp_cfg P)); eexists; reflexivity.
Qed.
Example C06_witness : quote_text 34 (u "a\b'c") = ([34%N] ++ u "a\\b'c" ++ [34%N]) /\ is_pystr (u "a\b'c").
Proof. split; [reflexivity|]. repeat constructor; discriminate. Qed.

(** C07.  Escape decoding, for every literal in every parsed query: the literal is
    made of the elements of the escape table, and the regex is the normal form of the
    concatenated meanings. *)
Theorem C07_decoding : forall (V : env) (P : qparser) (w : pystr), env_ok V -> is_literal w ->
  (forall q es v, (q = 34 \/ q = 39)%N -> Forall (elem_ok q) es -> w = lit_text q es -> lit_value es = Some v ->
     exists loc, parse V P w =
       Ok (QN (PSegment 1 1) loc
             [QN (PExpr None (default_identifier (qp_cfg P)) (default_operator (qp_cfg P))
                    (normalised (e_penv V) (qp_cfg P) v) None) loc []])) /\
  (~ decodable w -> exists m, parse V P w = Raise (QueryParserError m)).
Proof.
  intros V P w HV Hlit. split.
  - intros q es v Hq Hes Hw Hv. assert (Hm : literal_means w v) by (exists q, es; auto).
    rewrite (parse_literal V P _ _ HV Hm). unfold with_locs. destruct (enableSourceLocations (qp_cfg P)); eexists; reflexivity.
  - intros Hn. destruct (parse_outcome V P w HV) as [(n & [_ Ht] & _)|(_ & Hm)]; [|exact Hm]. exfalso. apply Hn.
    assert (Htk : tokens w = [mkTok REGEXP w 0 (zlen w - 1) 1 0; eof_token w]) by (unfold tokens; rewrite (lexemes_literal w Hlit); reflexivity).
    rewrite Htk in Ht. exact (proj1 Ht _ (or_introl eq_refl) eq_refl).
Qed.
(** The reading of a literal as elements is unique. *)
Theorem C07_unambiguous : forall w v v', literal_means w v -> literal_means w v' -> v = v'.
Proof. exact literal_means_det. Qed.
(** Everything the tokeniser takes for a literal is one. *)
Theorem C07_literals : forall q t, In t (lx_tokens (lexemes q)) -> t_type t = REGEXP -> is_literal (t_text t).
Proof. intros q t H Ht. pose proof (proj1 (token_text_ok q t H)) as H'. rewrite Ht in H'. exact H'. Qed.
(** In whole queries: a query that parses contains decodable literals only. *)
Theorem C07_all_decoded : forall V P q n, env_ok V -> parse V P q = Ok n ->
  forall t, In t (lx_tokens (lexemes q)) -> t_type t = REGEXP -> decodable (t_text t).
Proof.
  intros V P q n HV Hp t Hin Ht. destruct (parse_ok_inv V P q n HV Hp) as (m & [_ Hx] & _).
  apply (proj1 Hx t); [apply in_or_app; left; exact Hin|exact Ht].
Qed.
Example C07_witness : literal_means (u "'a\n\x41\.\\'") (u "a" ++ [10%N] ++ u "A\.\").
Proof.
  exists 39%N, [EPlain 97; ESimple 110; EHex 120 (u "41"); ESimple 46; ESimple 92]%N.
  repeat split; auto; repeat constructor; try discriminate; cbn; tauto.
Qed.

(** C08 as worded is false: the lexer grammar lists the escapes of the closing
    brackets, the tree builder rejects them. *)
Theorem C08_refuted :
  ~ (forall (V : env) (P : qparser) (q : pystr), env_ok V -> lex_errors q = [] -> conforms (tokens q) ->
       (forall t, In t (tokens q) -> t_type t <> REGEXP_FLAGS) -> (forall t, In t (tokens q) -> t_type t <> INTEGER) ->
       exists n, parse V P q = Ok n).
Proof.
  intros H. destruct (H some_env (new_parser (default_cfg true)) (u "'\}'") some_env_ok) as (n & Hn).
  - reflexivity.
  - apply in_grammar_conforms. vm_compute. reflexivity.
  - vm_compute. intuition (subst; discriminate).
  - vm_compute. intuition (subst; discriminate).
  - vm_compute in Hn. discriminate.
Qed.
(** What holds exactly: these two escapes (and code points beyond 10FFFF) are the
    only literals that make an otherwise acceptable query fail. *)
Definition undecodable (e : lit_elem) : Prop :=
  e = ESimple 125 \/ e = ESimple 93 \/ exists k ds, e = EHex k ds /\ (1114111 < hex_value ds)%N.
Lemma elem_decodes k e : elem_ok k e -> (exists a, elem_value e = Some a) <-> ~ undecodable e.
Proof.
  intros He. unfold undecodable. destruct e as [c|c|c ds]; cbn [elem_value].
  - split; [|eauto]. intros _ [H|[H|(? & ? & H & _)]]; discriminate.
  - cbn [elem_ok] in He. unfold simple_escape_chars in He. cbn in He.
    repeat (destruct He as [<-|He]; [cbn; (split; [try (intros (a & H); discriminate); intros _ [H|[H|(? & ? & H & _)]]; discriminate|
      intros Hn; try (exfalso; apply Hn; tauto); eauto])|]). destruct He.
  - destruct (N.leb_spec (hex_value ds) 1114111) as [Hle|Hlt].
    + split; [|eauto]. intros _ [H|[H|(? & ? & H & Hx)]]; try discriminate. injection H as <- <-. lia.
    + split; [intros (a & H); discriminate|]. intros Hn. exfalso. apply Hn. right. right. exists c, ds. auto.
Qed.
Lemma lit_decodes k es : Forall (elem_ok k) es -> (exists v, lit_value es = Some v) <-> forall e, In e es -> ~ undecodable e.
Proof.
  induction 1 as [|e es He _ IH]; cbn [lit_value].
  - split; [intros _ e []|eauto].
  - split.
    + intros (v & Hv). destruct (elem_value e) eqn:Ha; [|discriminate]. destruct (lit_value es) eqn:Hb; [|discriminate].
      intros e' [<-|Hin]; [apply (elem_decodes k e He); eauto|]. apply (proj1 IH); eauto.
    + intros Hn. destruct (proj2 (elem_decodes k e He)) as (a & ->); [apply Hn; left; reflexivity|].
      destruct (proj2 IH) as (b & ->); [intros e' Hin; apply Hn; right; exact Hin|]. eauto.
Qed.
Lemma decodable_iff k es : (k = 34 \/ k = 39)%N -> Forall (elem_ok k) es ->
  decodable (lit_text k es) <-> forall e, In e es -> ~ undecodable e.
Proof.
  intros Hk Hes. rewrite <- (lit_decodes k es Hes). split.
  - intros (v & k' & es' & Hk' & Hes' & Heq & Hv). unfold lit_text in Heq. injection Heq as -> Heq.
    apply (lit_body_inj k' es es' [] []) in Heq; auto. destruct Heq as [-> _]. eauto.
  - intros (v & Hv). exists v, k, es. auto.
Qed.
Theorem C08_exact : forall (V : env) (P : qparser) (q : pystr), env_ok V -> lex_errors q = [] -> conforms (tokens q) ->
  (forall pre s f post, tokens q = pre ++ s :: f :: post -> t_type s = FWD_SLASH -> t_type f = REGEXP_FLAGS -> flags_ok (t_text f)) ->
  (forall t, In t (tokens q) -> t_type t = INTEGER -> int_ok (e_penv V) (t_text t)) ->
  (forall pre a c b post, tokens q = pre ++ a :: c :: b :: post ->
     t_type a = INTEGER -> t_type c = Q_COMMA -> t_type b = INTEGER -> dec_value (t_text a) <= dec_value (t_text b)) ->
  (exists n, parse V P q = Ok n) <->
  (forall t k es, In t (tokens q) -> (k = 34 \/ k = 39)%N -> Forall (elem_ok k) es -> t_type t = REGEXP -> t_text t = lit_text k es ->
     forall e, In e es -> ~ undecodable e).
Proof.
  intros V P q HV Hl Hc Hf Hi Hr. rewrite (C02_accepted_iff V P q HV). split.
  - intros (_ & _ & Hx & _) t k es Hin Hk Hes Ht Htx. apply (decodable_iff k es Hk Hes). rewrite <- Htx. apply Hx; assumption.
  - intros H. split; [exact Hl|]. split; [exact Hc|]. split; [|auto]. intros t Hin Ht.
    assert (Hlit : is_literal (t_text t)).
    { unfold tokens in Hin. apply in_app_or in Hin. destruct Hin as [Hin|[<-|[]]]; [eapply C07_literals; eassumption|discriminate Ht]. }
    destruct Hlit as (k & es & Hk & Hes & Htx). rewrite Htx. apply (decodable_iff k es Hk Hes). eapply H; eassumption.
Qed.
Example C08_witness : exists n, parse some_env (new_parser (default_cfg true)) (u "'\{\[\x7d\u005d\U0010FFFF\|\t'") = Ok n.
Proof. vm_compute. eauto. Qed.
Print Assumptions C01_parse_total. Print Assumptions C01_can_parse. Print Assumptions C02_accepted_iff.
Print Assumptions C02_meaningful_iff. Print Assumptions C02_denoted. Print Assumptions C06_quote_roundtrip.
Print Assumptions C07_decoding. Print Assumptions C07_all_decoded. Print Assumptions C08_refuted. Print Assumptions C08_exact.
