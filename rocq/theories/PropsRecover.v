(** Property C64: error recovery. *)
From Coq Require Import String Sorting.Sorted.
From Verif Require Import Base Regex LexRules Lexer Grammar Antlr Ast Builder Parser ModelTests LexSpec LexFacts LexThms GramSpec GramFacts TokenSpec GenParser Atn AtnFacts AtnNets GenNet GenFacts GenPredict PropsLex TreeFacts ParseSpec ParseFacts PropsParse PropsErrors AllStar AllStarFacts AllStarLoop AllStarNet AllStarRun PropsAllStar
  ContextData Recover RecoverPred RecoverNeed RecoverTerm RecoverInv RecoverSim.
Local Open Scope Z_scope.
Opaque parser_atn.

(** ** C64 *)
Lemma recovered q : exists s, recovering parser_atn (tokens q) = RNormal s /\ parser_calls (tokens q) = rev (p_calls s) /\ at_eof s /\ fin (tokens q) s /\
  (conforms (tokens q) -> p_calls s = []) /\ (~ conforms (tokens q) -> p_calls s <> []).
Proof.
  destruct (query_quiet (tokens q) (tokens_eof q)) as (s & Hs & He & H1 & H2). exists s. split; [exact Hs|]. split; [unfold parser_calls; rewrite Hs; reflexivity|]. split; [exact He|]. split; [apply query_fin; [apply tokens_eof|exact Hs]|]. split; intros Hc.
  - destruct (C61_accepts q Hc) as (t & _ & Hg). exact (H1 _ _ Hg).
  - apply H2. apply C61_rejects. exact Hc.
Qed.
(** The generated parser ends on every query, and it ends at the end of the input: whatever it could not use it has skipped. *)
Theorem C64_terminates : forall q, exists s e, recovering parser_atn (tokens q) = RNormal s /\ p_rest s = [e] /\ t_type e = EOF.
Proof.
  intros q. destruct (recovered q) as (s & Hs & _ & [Hw He] & _). exists s. destruct (wfp_cases s Hw) as [(k & Er & Ek)|(k & k' & r & Er & Ek & _)]; [exists k; auto|]. rewrite Er in He. contradiction.
Qed.
(** It reports an error exactly if the tokens do not follow the grammar. *)
Theorem C64_reports : forall q, parser_calls (tokens q) = [] <-> conforms (tokens q).
Proof.
  intros q. destruct (recovered q) as (s & _ & -> & _ & _ & H1 & H2). split.
  - intros E. destruct (in_grammar (tokens q)) eqn:Hg; [apply in_grammar_conforms; exact Hg|]. exfalso. apply H2.
    + intros Hc. apply in_grammar_conforms in Hc. congruence.
    + apply (f_equal (@rev _)) in E. rewrite rev_involutive in E. exact E.
  - intros Hc. rewrite (H1 Hc). reflexivity.
Qed.
(** Every error it reports is about a token of the query, and gives its line and column; there are not more errors than tokens. *)
Theorem C64_tokens : forall q k c, In (k, c) (parser_calls (tokens q)) ->
  exists t, In t (tokens q) /\ lc_token c = Some t /\ lc_line c = t_line t /\ lc_column c = t_col t.
Proof.
  intros q k c H. destruct (recovered q) as (s & _ & E & _ & [Hf _] & _). rewrite E in H. apply in_rev in H. rewrite Forall_forall in Hf. destruct (Hf _ H) as (t & i & Hi & _ & Ht). exists t. split; [exact (nth_error_In _ _ Hi)|exact Ht].
Qed.
Theorem C64_count : forall q, (List.length (parser_calls (tokens q)) <= List.length (tokens q))%nat.
Proof. intros q. destruct (recovered q) as (s & _ & E & _ & [_ Hl] & _). rewrite E, rev_length. exact Hl. Qed.

(** ** The listener's view: lexer and parser *)
Definition from_lexer (c : lcall) : bool := match lc_token c with None => true | Some _ => false end.
Lemma in_interleave ts c : forall calls errs, In c (interleave ts calls errs) <-> In c (map snd calls) \/ In c (map lexer_call errs).
Proof.
  induction calls as [|[k x] calls IH]; intros errs; cbn [interleave map In snd]; [tauto|]. rewrite in_app_iff. cbn [In]. rewrite IH.
  set (h := fun e => le_start e <? _). assert (HF : In c (map lexer_call errs) <-> In c (map lexer_call (filter h errs)) \/ In c (map lexer_call (filter (fun e => negb (h e)) errs))).
  { rewrite !in_map_iff. split.
    - intros (e & E & He). destruct (h e) eqn:Eh; [left|right]; exists e; (split; [exact E|]); apply filter_In; (split; [exact He|]); rewrite ?Eh; reflexivity.
    - intros [(e & E & He)|(e & E & He)]; apply filter_In in He; exists e; tauto. }
  tauto.
Qed.
Lemma filter_map {X Y} (p : Y -> bool) (f : X -> Y) l : filter p (map f l) = map f (filter (fun x => p (f x)) l).
Proof. induction l as [|a l IH]; [reflexivity|]. cbn. destruct (p (f a)); cbn; rewrite IH; reflexivity. Qed.
Lemma interleave_parser ts : forall calls errs, Forall (fun x => from_lexer (snd x) = false) calls -> filter (fun c => negb (from_lexer c)) (interleave ts calls errs) = map snd calls.
Proof.
  assert (HL : forall l, filter (fun c => negb (from_lexer c)) (map lexer_call l) = []) by (induction l as [|a l IH]; [reflexivity|exact IH]).
  induction calls as [|[k x] calls IH]; intros errs H; cbn [interleave map snd]; [apply HL|]. inversion H as [|? ? H1 H2]; subst. rewrite filter_app, HL. cbn [app filter]. cbn [snd] in H1. rewrite H1. cbn [negb]. rewrite IH by exact H2. reflexivity.
Qed.
Lemma split_sorted z l : StronglySorted (fun a b => le_start a < le_start b) l -> filter (fun e => le_start e <? z) l ++ filter (fun e => negb (le_start e <? z)) l = l.
Proof.
  induction 1 as [|a l Hs IH Ha]; [reflexivity|]. cbn [filter]. destruct (Z.ltb_spec (le_start a) z) as [H|H]; cbn [negb app]; [rewrite IH; reflexivity|].
  assert (E : filter (fun e => le_start e <? z) l = []). { clear IH Hs. induction Ha as [|b l Hb Hl IH]; [reflexivity|]. cbn [filter]. destruct (Z.ltb_spec (le_start b) z); [lia|exact IH]. }
  rewrite E in *. cbn [app] in *. rewrite IH. reflexivity.
Qed.
Lemma sorted_filter {X} (R : X -> X -> Prop) p l : StronglySorted R l -> StronglySorted R (filter p l).
Proof.
  induction 1 as [|a l Hs IH Ha]; [constructor|]. cbn [filter]. destruct (p a); [|exact IH]. constructor; [exact IH|]. rewrite Forall_forall in *. intros x Hx. apply filter_In in Hx. apply Ha. tauto.
Qed.
Lemma interleave_lexer ts : forall calls errs, Forall (fun x => from_lexer (snd x) = false) calls -> StronglySorted (fun a b => le_start a < le_start b) errs ->
  filter from_lexer (interleave ts calls errs) = map lexer_call errs.
Proof.
  assert (HL : forall l, filter from_lexer (map lexer_call l) = map lexer_call l) by (induction l as [|a l IH]; [reflexivity|cbn; rewrite IH; reflexivity]).
  induction calls as [|[k x] calls IH]; intros errs H Hs; cbn [interleave]; [apply HL|]. inversion H as [|? ? H1 H2]; subst. rewrite filter_app, HL. cbn [filter]. cbn [snd] in H1. rewrite H1.
  rewrite IH by (try exact H2; apply sorted_filter; exact Hs). rewrite <- map_app. f_equal. apply split_sorted. exact Hs.
Qed.
Lemma errors_sorted s : forall fuel pos line col, StronglySorted (fun a b => le_start a < le_start b) (lx_errors (lex_loop fuel pos line col s)) /\ Forall (fun e => pos <= le_start e) (lx_errors (lex_loop fuel pos line col s)).
Proof.
  intros fuel. revert s. induction fuel as [|fuel IH]; intros s pos line col; [split; constructor|]. cbn [lex_loop]. destruct s as [|c s]; [split; constructor|].
  assert (HW : forall s' p l c', pos <= p -> StronglySorted (fun a b => le_start a < le_start b) (lx_errors (lex_loop fuel p l c' s')) /\ Forall (fun e => pos <= le_start e) (lx_errors (lex_loop fuel p l c' s'))).
  { intros s' p l c' Hp. destruct (IH s' p l c') as [H1 H2]. split; [exact H1|]. eapply Forall_impl; [|exact H2]. intros e He. cbn in He. lia. }
  destruct (exec_atn lex_rules (c :: s) O None) as [[[ty n]|] m].
  - cbv zeta. unfold lx_errors at 1 2. destruct ty; cbn [flat_map app]; apply HW; lia.
  - cbv zeta. unfold lx_errors. cbn [flat_map app]. fold (lx_errors (lex_loop fuel (pos + zlen (firstn (S m) (c :: s))) (fst (advance_pos line col (firstn (S m) (c :: s)))) (snd (advance_pos line col (firstn (S m) (c :: s)))) (skipn (S m) (c :: s)))).
    destruct (IH (skipn (S m) (c :: s)) (pos + zlen (firstn (S m) (c :: s))) (fst (advance_pos line col (firstn (S m) (c :: s)))) (snd (advance_pos line col (firstn (S m) (c :: s))))) as [H1 H2].
    assert (Hz : 1 <= zlen (firstn (S m) (c :: s))) by (unfold zlen; cbn [firstn List.length]; lia).
    split; constructor; [exact H1| |cbn; lia|]; eapply Forall_impl; [|exact H2| |exact H2]; intros e He; cbn in *; lia.
Qed.
Lemma from_parser q : Forall (fun x => from_lexer (snd x) = false) (parser_calls (tokens q)).
Proof. apply Forall_forall. intros [k c] H. destruct (C64_tokens q k c H) as (t & _ & E & _). unfold from_lexer. cbn [snd]. rewrite E. reflexivity. Qed.
(** The listener hears all the lexical errors, and all the parser's errors, each in their order; nothing else. *)
Theorem C64_lexical : forall q, filter from_lexer (antlr_calls q) = map lexer_call (lex_errors q).
Proof. intros q. apply interleave_lexer; [apply from_parser|]. apply errors_sorted. Qed.
Theorem C64_syntactic : forall q, filter (fun c => negb (from_lexer c)) (antlr_calls q) = map snd (parser_calls (tokens q)).
Proof. intros q. apply interleave_parser. apply from_parser. Qed.

(** A syntax error is never heard before the lexical errors to the left of its token. *)
Lemma starts_sorted l : forall pos s, tiles pos s l -> StronglySorted (fun a b => t_start a <= t_start b) (lx_tokens l) /\ Forall (fun t => pos <= t_start t <= pos + zlen s) (lx_tokens l).
Proof.
  induction l as [|x l IH]; intros pos s H; [split; constructor|]. cbn [tiles] in H. destruct H as (Hs & _ & r & -> & Hr). destruct (IH _ _ Hr) as [H1 H2]. assert (Hz : 0 <= zlen (lx_text x)) by (unfold zlen; lia). assert (Hr0 : 0 <= zlen r) by (unfold zlen; lia).
  assert (Ez : zlen (lx_text x ++ r) = zlen (lx_text x) + zlen r) by (unfold zlen; rewrite app_length; lia). rewrite Ez.
  assert (HF : Forall (fun t => pos <= t_start t <= pos + (zlen (lx_text x) + zlen r)) (lx_tokens l)) by (eapply Forall_impl; [|exact H2]; intros t Ht; cbn in Ht; lia).
  unfold lx_tokens. cbn [flat_map]. fold (lx_tokens l). destruct x as [t|t|]; cbn [app]; [|auto|auto]. cbn [lx_start] in Hs. split; constructor; [exact H1| |lia|exact HF]. eapply Forall_impl; [|exact HF]. intros b Hb. cbn in Hb. lia.
Qed.
Lemma sorted_snoc {X} (R : X -> X -> Prop) l x : StronglySorted R l -> Forall (fun y => R y x) l -> StronglySorted R (l ++ [x]).
Proof.
  induction 1 as [|a l Hs IH Ha]; intros H; [repeat constructor|]. inversion H as [|? ? H1 H2]; subst. cbn [app]. constructor; [apply IH; exact H2|]. apply Forall_app. split; [exact Ha|]. constructor; [exact H1|constructor].
Qed.
Lemma tokens_sorted q : StronglySorted (fun a b => t_start a <= t_start b) (tokens q).
Proof.
  destruct (starts_sorted (lexemes q) 0 q (lex_loop_tiles _ _ _ _ _ (Nat.le_refl _))) as [H1 H2]. apply sorted_snoc; [exact H1|]. eapply Forall_impl; [|exact H2]. intros t Ht. cbn in *. lia.
Qed.
Lemma sorted_nth (l : list token) : StronglySorted (fun a b => t_start a <= t_start b) l -> forall i j a b, (i <= j)%nat -> nth_error l i = Some a -> nth_error l j = Some b -> t_start a <= t_start b.
Proof.
  induction 1 as [|x l Hs IH Hx]; intros i j a b Hij Ha Hb; [destruct i; discriminate|]. rewrite Forall_forall in Hx. destruct i as [|i], j as [|j]; cbn [nth_error] in *.
  - injection Ha as <-. injection Hb as <-. lia.
  - injection Ha as <-. apply Hx. exact (nth_error_In _ _ Hb).
  - lia.
  - eapply IH; [|exact Ha|exact Hb]. lia.
Qed.
Lemma interleave_after ts e t c : StronglySorted (fun a b => t_start a <= t_start b) ts -> le_start e < t_start t -> lc_token c = Some t ->
  forall calls errs, Forall (fun x => exists i t, nth_error ts i = Some t /\ (i < fst x <= List.length ts)%nat /\ lc_token (snd x) = Some t) calls -> In e errs ->
  forall x y, interleave ts calls errs = x ++ c :: y -> In (lexer_call e) x.
Proof.
  intros HS He Hc. assert (HL : forall l x y, map lexer_call l <> x ++ c :: y). { intros l x y E. assert (Hi : In c (map lexer_call l)) by (rewrite E; apply in_or_app; right; left; reflexivity). apply in_map_iff in Hi. destruct Hi as (e' & <- & _). discriminate. }
  induction calls as [|[k c0] calls IH]; intros errs HF Hin x y E; cbn [interleave] in E; [destruct (HL _ _ _ E)|]. inversion HF as [|? ? (i & t0 & Hi & Hk & Ht0) HF']; subst. cbn [fst snd] in *.
  set (here := fun e0 => le_start e0 <? t_start (nth (Nat.pred k) ts (last ts (mkTok EOF [] 0 0 0 0)))) in *.
  assert (Hsplit : forall A x, map lexer_call A ++ c0 :: interleave ts calls (filter (fun e => negb (here e)) errs) = x ++ c :: y -> exists x', x = map lexer_call A ++ x' /\ c0 :: interleave ts calls (filter (fun e => negb (here e)) errs) = x' ++ c :: y).
  { clear -Hc. induction A as [|a A IHA]; intros x E; [exists x; auto|]. cbn [map app] in E. destruct x as [|a' x]; cbn [app] in E; [injection E as E _; subst c; discriminate|]. injection E as <- E. destruct (IHA x E) as (x' & -> & E'). exists x'. auto. }
  destruct (Hsplit _ _ E) as (x' & -> & E'). apply in_or_app. destruct (here e) eqn:Eh; [left; apply in_map; apply filter_In; auto|]. right. destruct x' as [|c1 x']; cbn [app] in E'.
  - exfalso. injection E' as -> _. rewrite Ht0 in Hc. injection Hc as ->. unfold here in Eh. apply Z.ltb_ge in Eh.
    assert (Hn : nth_error ts (Nat.pred k) = Some (nth (Nat.pred k) ts (last ts (mkTok EOF [] 0 0 0 0)))) by (apply nth_error_nth'; lia).
    pose proof (sorted_nth ts HS i (Nat.pred k) _ _ ltac:(lia) Hi Hn). lia.
  - injection E' as _ E'. right. eapply IH; [exact HF'| |exact E']. apply filter_In. rewrite Eh. auto.
Qed.
Theorem C64_after_lexical : forall q x c y t e, antlr_calls q = x ++ c :: y -> lc_token c = Some t -> In e (lex_errors q) -> le_start e < t_start t -> In (lexer_call e) x.
Proof.
  intros q x c y t e E Hc He Hlt. eapply (interleave_after (tokens q) e t c (tokens_sorted q) Hlt Hc); [|exact He|exact E]. destruct (recovered q) as (s & _ & -> & _ & [Hf _] & _). apply Forall_rev. eapply Forall_impl; [|exact Hf].
  intros z (t0 & i & Hi & Hk & Ht & _). exists i, t0. auto.
Qed.

(** ** Nothing is left open *)
(** All theorems about [parse] that assume [env_ok] hold of the parser with this error recovery. *)
Theorem C64_contract : forall E, env_ok (antlr_env E).
Proof.
  intros E q Hg. cbn [antlr_env e_calls]. assert (Hn : ~ conforms (tokens q)) by (intros Hc; apply in_grammar_conforms in Hc; congruence). split.
  - destruct (parser_calls (tokens q)) as [|[k c] l] eqn:Ec; [destruct Hn; apply C64_reports; exact Ec|]. exists c. assert (Hin : In (k, c) (parser_calls (tokens q))) by (rewrite Ec; left; reflexivity).
    split; [|destruct (C64_tokens q k c Hin) as (t & _ & Et & _); congruence]. apply in_interleave. left. rewrite Ec. left. reflexivity.
  - intros c Hc. apply in_interleave in Hc. destruct Hc as [Hc|Hc]; apply in_map_iff in Hc.
    + destruct Hc as ([k c'] & E' & Hin). cbn [snd] in E'. subst c'. destruct (C64_tokens q k c Hin) as (t & Ht & Et & _). right. exists t. auto.
    + destruct Hc as (e & <- & He). left. exists e. auto.
Qed.
Theorem C64_listener : forall E q, listener_calls (antlr_env E) q = antlr_calls q.
Proof.
  intros E q. unfold listener_calls. destruct (in_grammar (tokens q)) eqn:Hg; [|reflexivity]. apply in_grammar_conforms in Hg. apply C64_reports in Hg. unfold antlr_calls. rewrite Hg. reflexivity.
Qed.
(** The message of the exception [parse] raises on a query with errors is that of the first call. *)
Theorem C64_message : forall E P q c l, antlr_calls q = c :: l ->
  parse (antlr_env E) P q = Raise (QueryParserError (u "unable to parse query: " ++ lc_msg c)).
Proof.
  intros E P q c l H. unfold parse, parser_parse. cbn [snd]. unfold parse_body, syntax_errors. rewrite C64_listener, H. cbn [map]. unfold syntaxError. destruct (lc_token c); reflexivity.
Qed.
(** If there is a lexical error to the left of the token the parser first complains about (or the parser does not complain), the
    exception is about the first lexical error. *)
Theorem C64_lexical_first : forall E P q e es, lex_errors q = e :: es ->
  (forall k c l t, parser_calls (tokens q) = (k, c) :: l -> lc_token c = Some t -> le_start e < t_start t) ->
  parse (antlr_env E) P q = Raise (QueryParserError (u "unable to parse query: " ++ lc_msg (lexer_call e))).
Proof.
  intros E P q e es HL HP. pose proof (C64_lexical q) as H1. pose proof (C64_syntactic q) as H2. destruct (antlr_calls q) as [|c0 l] eqn:EC; [rewrite HL in H1; discriminate|]. destruct (from_lexer c0) eqn:Ec.
  - assert (E0 : c0 = lexer_call e) by (cbn [filter] in H1; rewrite Ec, HL in H1; cbn [map] in H1; congruence). subst c0. exact (C64_message E P q _ _ EC).
  - exfalso. cbn [filter] in H2. rewrite Ec in H2. cbn [negb] in H2. destruct (parser_calls (tokens q)) as [|[k c] pl] eqn:EP; [discriminate|]. cbn [map snd] in H2. injection H2 as <- _.
    unfold from_lexer in Ec. destruct (lc_token c0) as [t|] eqn:Et; [|discriminate]. exact (C64_after_lexical q [] c0 l t e EC Et ltac:(rewrite HL; left; reflexivity) (HP _ _ _ _ eq_refl Et)).
Qed.
Theorem C64_raises : forall q, antlr_calls q = [] <-> lex_errors q = [] /\ conforms (tokens q).
Proof.
  intros q. rewrite <- C64_reports. split.
  - intros H. pose proof (C64_lexical q) as HL. pose proof (C64_syntactic q) as HS. rewrite H in HL, HS. cbn [filter] in HL, HS. split; [destruct (lex_errors q); [reflexivity|discriminate]|destruct (parser_calls (tokens q)); [reflexivity|discriminate]].
  - intros [H1 H2]. unfold antlr_calls. rewrite H1, H2. reflexivity.
Qed.
(** [antlr_parse] (whose listener hears the parser only) raises with the first of the parser's errors: "line l:c message". *)
Theorem C64_antlr_parse : forall q, antlr_message q = None <-> exists t, antlr_parse q = Ok t.
Proof.
  intros q. unfold antlr_message. pose proof (C64_reports q) as HR. pose proof (C49_exact q) as HX. destruct (parser_calls (tokens q)) as [|[k c] l].
  - split; [intros _|reflexivity]. destruct (antlr_parse q) as [t|e]; [eauto|]. exfalso. apply (proj1 HX); [eauto|]. apply HR. reflexivity.
  - split; [discriminate|]. intros (t & Ht). exfalso. assert (Hn : ~ conforms (tokens q)) by (intros Hc; apply HR in Hc; discriminate). apply HX in Hn. destruct Hn as (e & He). congruence.
Qed.

(** Errors are not reported in the order of their positions: neither those of the parser alone, nor lexical ones among them. *)
Transparent parser_atn.
Theorem C64_order_refuted :
  ~ (forall q a b x y z, antlr_calls q = x ++ a :: y ++ b :: z -> lc_line a < lc_line b \/ lc_line a = lc_line b /\ lc_column a <= lc_column b).
Proof.
  intros H. assert (HC : exists a b, antlr_calls (u "[ within = 'x' & |") = [a; b] /\ lc_line a = 1 /\ lc_column a = 17 /\ lc_line b = 1 /\ lc_column b = 9) by (eexists _, _; vm_compute; repeat split).
  destruct HC as (a & b & E & A1 & A2 & B1 & B2). specialize (H (u "[ within = 'x' & |") a b [] [] [] E). lia.
Qed.

(** ** Concrete cases: the messages of README.md:117, of tests/validation/test_validation.py:57, and the other kinds *)
Definition heard (q : pystr) : list (Z * Z * pystr) := map (fun c => (lc_line c, lc_column c, lc_msg c)) (antlr_calls q).
Example C64_readme : heard (u "pos = NOUN") = [(1, 0, u "mismatched input 'pos' expecting {'(', '[', REGEXP}")]. Proof. vm_compute. reflexivity. Qed.
Example C64_test : heard (u "[") = [(1, 1, u "no viable alternative at input '['")]. Proof. vm_compute. reflexivity. Qed.
Example C64_extraneous : heard (u "'a' 'b' )") = [(1, 8, u "extraneous input ')' expecting {<EOF>, 'within'}")]. Proof. vm_compute. reflexivity. Qed.
Example C64_missing : heard (u "'a' within") = [(1, 10, u "missing SIMPLE_WITHIN_SCOPE at '<EOF>'")]. Proof. vm_compute. reflexivity. Qed.
Example C64_several : heard (u "'b' | | 'c' # | ]") =
  [(1, 6, u "extraneous input '|' expecting {'(', '[', REGEXP}"); (1, 12, u "token recognition error at: '#'"); (1, 16, u "mismatched input ']' expecting {'(', '[', REGEXP}")].
Proof. vm_compute. reflexivity. Qed.
(** A lexical error behind a syntax error is heard first if the parser has looked that far. *)
Example C64_ahead : map (fun c => lc_column c) (antlr_calls (u "[a='b' ) $ ]")) = [9; 7]. Proof. vm_compute. reflexivity. Qed.
Example C64_left : lex_errors (u "'a' # ]") <> [] /\ antlr_calls (u "'a' # ]") = map lexer_call (lex_errors (u "'a' # ]")) ++ map snd (parser_calls (tokens (u "'a' # ]"))) /\
  parser_calls (tokens (u "'a' # ]")) <> [].
Proof. vm_compute. repeat split; discriminate. Qed.
Example C64_witness : antlr_message (u "'a' |") = Some (u "line 1:5 mismatched input '<EOF>' expecting {'(', '[', REGEXP}") /\ antlr_message (u "'a' # [b='c']") = None /\
  parser_calls (tokens (u "'a' # [b='c']")) = [] /\ List.length (antlr_calls (u "'a' # [b='c']")) = 1%nat.
Proof. repeat split; vm_compute; reflexivity. Qed.
Print Assumptions C64_terminates. Print Assumptions C64_reports. Print Assumptions C64_tokens. Print Assumptions C64_count. Print Assumptions C64_lexical. Print Assumptions C64_syntactic.
Print Assumptions C64_after_lexical. Print Assumptions C64_lexical_first. Print Assumptions C64_contract. Print Assumptions C64_listener. Print Assumptions C64_message. Print Assumptions C64_raises. Print Assumptions C64_antlr_parse. Print Assumptions C64_order_refuted.
