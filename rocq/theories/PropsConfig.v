(** Properties C05, C12, C24, C26, C27, C51: white space, parser settings, reuse, errors. *)
From Coq Require Import String.
From Verif Require Import Base Regex LexRules Lexer Grammar Antlr Ast Builder Parser LexSpec LitSpec LexRuleFacts LexThms LexWs
  GramSpec GramFacts ValueSpec ValueFacts SpellSpec BuilderFacts BuilderRules ParseSpec ParseFacts EvFacts TreeSpec TreeFacts
  SimFacts TokenSpec TokenFacts ConfigSpec ConfigFacts PropsParse.
Local Open Scope Z_scope.

(** C05.  White space at a token boundary. *)
Theorem C05_white_space : forall (V : env) (P : qparser) (q w : pystr) (i : nat), env_ok V ->
  token_boundary q i -> Forall white_space w ->
  (forall n, parse V P q = Ok n -> exists n', parse V P (firstn i q ++ w ++ skipn i q) = Ok n' /\ erase n' = erase n) /\
  (forall n', parse V P (firstn i q ++ w ++ skipn i q) = Ok n' -> exists n, parse V P q = Ok n /\ erase n = erase n').
Proof.
  intros V P q w i HV Hb Hw. assert (Hw' : Forall is_ws w).
  { eapply Forall_impl; [|exact Hw]. intros c Hc. apply white_space_ranges in Hc. apply in_ws. exact Hc. }
  pose proof (insert_ws_tokens q i w Hb Hw') as Hs. split.
  - intros n Hn. eapply same_tokens_parse; try exact Hn; auto. destruct Hs as [A B]. split; [symmetry; exact A|tauto].
  - intros n' Hn. eapply same_tokens_parse; try exact Hn; auto.
Qed.
(** Token boundaries include the ends, and the places before and after every token. *)
Theorem C05_boundaries : forall q : pystr, token_boundary q 0 /\ token_boundary q (List.length q) /\
  forall t, In t (lx_tokens (lexemes q)) -> token_boundary q (Z.to_nat (t_start t)) /\ token_boundary q (Z.to_nat (t_stop t + 1)).
Proof.
  intros q. split; [exists [], (lexemes q); auto|]. split.
  - exists (lexemes q), []. rewrite app_nil_r. split; [reflexivity|]. f_equal. eapply tiles_concat. apply lexemes_tiles.
  - intros t Ht. apply in_lx_tokens in Ht. apply in_split in Ht. destruct Ht as (l1 & l2 & Hl).
    pose proof (lexemes_at q l1 (LxTok t) l2 Hl) as (_ & Hs & _ & Hst & _). cbn [lx_start lx_text] in *. unfold zlen in *. split.
    + exists l1, (LxTok t :: l2). split; [exact Hl|]. rewrite Hs. lia.
    + exists (l1 ++ [LxTok t]), l2. split; [rewrite <- app_assoc; exact Hl|]. rewrite map_app, concat_app, app_length. cbn [map concat lx_text].
      rewrite app_nil_r, Hst. lia.
Qed.
Example C05_witness : token_boundary (u "'a'{1,2}within s") 6 /\ Forall white_space [32; 9; 8232; 12288]%N.
Proof. split; [exists (firstn 4 (lexemes (u "'a'{1,2}within s"))); eexists; vm_compute; split; reflexivity|repeat constructor; unfold white_space; lia]. Qed.

(** C24.  Source locations on or off. *)
Theorem C24_locations_only : forall (V : env) (P P' : qparser) (q : pystr), env_ok V ->
  qp_cfg P = mkCfg (default_identifier (qp_cfg P')) (default_operator (qp_cfg P')) (unicode_normalization_form (qp_cfg P')) true ->
  enableSourceLocations (qp_cfg P') = false ->
  (forall n, parse V P q = Ok n -> parse V P' q = Ok (erase n)) /\
  (forall n', parse V P' q = Ok n' -> exists n, parse V P q = Ok n /\ n' = erase n) /\
  (forall m, parse V P q = Raise m <-> parse V P' q = Raise m) /\
  errors_after V P q = errors_after V P' q.
Proof.
  intros V P P' q HV HC Hoff. unfold parse, errors_after, parser_parse. cbn [snd fst qp_errors].
  assert (HC' : qp_cfg P' = at_loc (qp_cfg P) false) by (rewrite HC; destruct (qp_cfg P') as [a b c d]; cbn in *; subst; reflexivity).
  assert (HCt : qp_cfg P = at_loc (qp_cfg P) true) by (rewrite HC; reflexivity).
  assert (Hb : (exists n, parse_body (build_tree (e_penv V) (qp_cfg P)) V q = Ok n /\ parse_body (build_tree (e_penv V) (qp_cfg P')) V q = Ok (erase n)) \/
               exists e, parse_body (build_tree (e_penv V) (qp_cfg P)) V q = Raise e /\ parse_body (build_tree (e_penv V) (qp_cfg P')) V q = Raise e).
  { unfold parse_body. destruct (syntax_errors V q) eqn:He; [|right; eauto].
    assert (Hw : well_formed q) by (apply (syntax_errors_none V q HV); exact He).
    destruct (antlr_query (tokens q)) as [t|] eqn:Ht; [|right; eauto].
    destruct (well_formed_outcome (e_penv V) (qp_cfg P) q t (proj2 Hw) Ht) as [(n & _ & _ & Hy)|(_ & e & He')].
    - left. exists n. split.
      + rewrite (build_tree_ok _ _ _ _ Hy). rewrite HC. reflexivity.
      + rewrite HC'. unfold build_tree, run_builder. rewrite Hy, alloc_tree. reflexivity.
    - right. exists e. split.
      + rewrite HCt. unfold build_tree, run_builder. rewrite He'. reflexivity.
      + rewrite HC'. unfold build_tree, run_builder. rewrite He'. reflexivity. }
  destruct Hb as [(n & -> & ->)|(e & -> & ->)].
  - cbn [handle]. split; [intros m H; injection H as <-; reflexivity|]. split; [intros m H; injection H as <-; eauto|].
    split; [|reflexivity]. intros m; split; discriminate.
  - split; [|split; [|split; [tauto|reflexivity]]]; intros m H; destruct (@handle_qp qnode e) as (x & Hx); congruence.
Qed.
Example C24_witness : exists n, parse some_env (new_parser (default_cfg true)) (u "('a' | [])*") = Ok n /\ n <> erase n.
Proof. eexists. split; [vm_compute; reflexivity|discriminate]. Qed.

(** C12.  The defaults appear in bare literals, and nowhere else. *)
Theorem C12_defaults : forall (V : env) (P P' : qparser) (q : pystr) (n : qnode), env_ok V ->
  enableSourceLocations (qp_cfg P) = true -> enableSourceLocations (qp_cfg P') = true ->
  unicode_normalization_form (qp_cfg P) = unicode_normalization_form (qp_cfg P') ->
  parse V P q = Ok n -> exists n', parse V P' q = Ok n' /\ same_but_defaults q (qp_cfg P) (qp_cfg P') n n'.
Proof.
  intros V P P' q n HV H1 H2 H3 Hp. assert (Ha : accepted V q) by (destruct (parse_ok_inv V P q n HV Hp) as (? & Ha & _); exact Ha).
  destruct (parse_outcome V P' q HV) as [(m & _ & _ & _ & Hm)|(Hn & _)]; [|contradiction].
  destruct (parse_ev V P q n HV Hp) as (t & k & Ht & Htr & Hl & Hk & _ & ->).
  destruct (parse_ev V P' q _ HV Hm) as (t' & k' & Ht' & _ & _ & Hk' & _ & Heq). rewrite Ht in Ht'. injection Ht' as <-.
  rewrite H1, Heq in *. rewrite H2 in *. eexists. split; [exact Hm|]. cbn [with_locs].
  pose proof (query_defaults (e_penv V) (qp_cfg P) (qp_cfg P') q H3 t Htr Hl) as H. rewrite Hk, Hk' in H. exact H.
Qed.
Theorem C12_bare : forall (V : env) (P : qparser) (w v : pystr), env_ok V -> literal_means w v ->
  exists loc, parse V P w =
    Ok (QN (PSegment 1 1) loc
          [QN (PExpr None (default_identifier (qp_cfg P)) (default_operator (qp_cfg P))
                 (normalised (e_penv V) (qp_cfg P) v) None) loc []]).
Proof.
  intros V P w v HV Hm. rewrite (parse_literal V P _ _ HV Hm). unfold with_locs.
  destruct (enableSourceLocations (qp_cfg P)); eexists; reflexivity.
Qed.
(** The module level function [fcsql.parse] uses the layer [text], the operator [=] and the form NFC. *)
Theorem C12_module : forall (V : env) (w v : pystr) (locations : bool), env_ok V -> literal_means w v ->
  exists loc, fcsql_parse V w locations =
    Ok (QN (PSegment 1 1) loc [QN (PExpr None (u "text") EQUALS (env_normalize (e_penv V) NFC v) None) loc []]) /\
    (loc = None <-> locations = false).
Proof.
  intros V w v locations HV Hm. unfold fcsql_parse. fold (parse V (new_parser (default_cfg locations)) w).
  rewrite (parse_literal V _ _ _ HV Hm). unfold with_locs. cbn [new_parser qp_cfg default_cfg enableSourceLocations].
  destruct locations; eexists; (split; [reflexivity|split; congruence]).
Qed.
Example C12_witness :
  let P := new_parser (mkCfg (u "lemma") NOT_EQUALS (Some NFC) true) in
  exists n, parse some_env P (u "'a' [text = 'b']") = Ok n /\
    map q_payload (flat_map q_children (q_children n)) =
      [PExpr None (u "lemma") NOT_EQUALS (u "a") None; PExpr None (u "text") EQUALS (u "b") None].
Proof. eexists. split; vm_compute; reflexivity. Qed.

(** C51.  Normalisation: the tree is the one without normalisation, with the normal
    form of every regex and nothing else changed. *)
Theorem C51_normalisation : forall (V : env) (P P0 : qparser) (q : pystr), env_ok V ->
  qp_cfg P0 = mkCfg (default_identifier (qp_cfg P)) (default_operator (qp_cfg P)) None (enableSourceLocations (qp_cfg P)) ->
  (forall n0, parse V P0 q = Ok n0 -> parse V P q = Ok (map_regex (normalised (e_penv V) (qp_cfg P)) n0)) /\
  ((exists n, parse V P q = Ok n) -> exists n0, parse V P0 q = Ok n0).
Proof.
  intros V P P0 q HV HC. split.
  - intros n0 Hp. assert (Ha : accepted V q) by (destruct (parse_ok_inv V P0 q n0 HV Hp) as (? & Ha & _); exact Ha).
    destruct (parse_outcome V P q HV) as [(m & _ & _ & _ & Hm)|(Hn & _)]; [|contradiction].
    destruct (parse_ev V P0 q n0 HV Hp) as (t & k & Ht & _ & _ & Hk & _ & ->).
    destruct (parse_ev V P q _ HV Hm) as (t' & k' & Ht' & _ & _ & Hk' & _ & Heq). rewrite Ht in Ht'. injection Ht' as <-.
    rewrite Hm, Heq. assert (E1 : enableSourceLocations (qp_cfg P0) = enableSourceLocations (qp_cfg P)) by (rewrite HC; reflexivity).
    rewrite E1. f_equal. rewrite (ev_norm (e_penv V) (qp_cfg P) (qp_cfg P0)), Hk in Hk' by (rewrite HC; reflexivity).
    injection Hk' as <-. unfold with_locs. destruct (enableSourceLocations (qp_cfg P)); [reflexivity|]. clear.
    induction k as [p l ch IH] using qnode_ind'. cbn [erase map_regex]. f_equal. rewrite !map_map. apply map_ext_in.
    intros c Hc. rewrite Forall_forall in IH. apply IH. exact Hc.
  - intros (n & Hp). destruct (parse_ok_inv V P q n HV Hp) as (? & Ha & _).
    destruct (parse_outcome V P0 q HV) as [(m & _ & _ & _ & Hm)|(Hn & _)]; [eauto|contradiction].
Qed.
Example C51_witness :
  let V := mkEnv (mkPEnv (fun _ s => s ++ u "!") 0 false) (e_calls some_env) in
  exists n, parse V (new_parser (default_cfg true)) (u "[q:text = 'b']") = Ok n /\
    map q_payload (q_children n) = [PExpr (Some (u "q")) (u "text") EQUALS (u "b!") None].
Proof. eexists. split; vm_compute; reflexivity. Qed.

(** C26.  A parser can be reused: only its settings and the query matter. *)
Definition after (V : env) (P : qparser) (history : list pystr) : qparser :=
  fold_left (fun p q => fst (parser_parse V p q)) history P.
Theorem C26_reuse : forall (V : env) (P : qparser) (history : list pystr) (q : pystr),
  parser_parse V (after V P history) q = parser_parse V (new_parser (qp_cfg P)) q.
Proof.
  intros V P history q. assert (H : forall hs P, qp_cfg (after V P hs) = qp_cfg P).
  { induction hs as [|h hs IH]; intros P0; [reflexivity|]. unfold after in *. cbn [fold_left]. rewrite IH. reflexivity. }
  unfold parser_parse. rewrite H. reflexivity.
Qed.
Example C26_witness :
  errors_after some_env (after some_env (new_parser (default_cfg true)) [u "'a"; u "["]) (u "'b'") = [] /\
  qp_errors (after some_env (new_parser (default_cfg true)) [u "'b'"; u "["]) <> [].
Proof. split; [vm_compute; reflexivity|vm_compute; discriminate]. Qed.

(** C27.  [.errors] after a call, whatever the calls before: empty exactly if the
    query is well-formed (so after every success); otherwise the exception message
    quotes the first entry. *)
Theorem C27_errors : forall (V : env) (P : qparser) (history : list pystr) (q : pystr), env_ok V ->
  let es := errors_after V (after V P history) q in
  let r := parse V (after V P history) q in
  (es = [] <-> lex_errors q = [] /\ conforms (tokens q)) /\
  ((exists n, r = Ok n) -> es = []) /\
  (forall e es', es = e :: es' -> r = Raise (QueryParserError (u "unable to parse query: " ++ ed_message e))) /\
  (forall e, In e es -> ed_type e = Some (u "syntax-error")).
Proof.
  intros V P history q HV. unfold errors_after, parse. rewrite C26_reuse. cbn [parser_parse fst snd qp_errors].
  split; [apply syntax_errors_none; exact HV|]. split; [|split].
  - intros (n & Hn). apply (syntax_errors_none V q HV).
    destruct (parse_ok_inv V (new_parser (qp_cfg P)) q n HV Hn) as (? & [Ha _] & _). exact Ha.
  - intros e es' He. unfold parse_body. rewrite He. reflexivity.
  - intros e Hin. unfold syntax_errors in Hin. apply in_map_iff in Hin. destruct Hin as (c & <- & _). unfold syntaxError.
    destruct (lc_token c); reflexivity.
Qed.
Example C27_witness : List.length (errors_after some_env (new_parser (default_cfg true)) (u "'a' #")) = 1%nat /\
  errors_after some_env (new_parser (default_cfg true)) (u "'a'{2,1}") = [].
Proof. vm_compute. auto. Qed.
Print Assumptions C05_white_space. Print Assumptions C05_boundaries. Print Assumptions C24_locations_only. Print Assumptions C12_defaults.
Print Assumptions C12_bare. Print Assumptions C51_normalisation. Print Assumptions C26_reuse. Print Assumptions C27_errors.
