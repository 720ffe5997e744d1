(** C73: parsing never blows up. *)
From Coq Require Import String.
From Verif Require Import Base Regex LexRules Lexer Grammar Antlr Ast Builder Parser GenParser Atn AllStar ContextData AllStarFacts AllStarLoop GenFacts Recover RecoverTerm
  Cache CacheFacts Cached CachedFacts WorkSpec WorkNeed WorkCount WorkMain WorkParse WorkQuery ParseSpec PropsParse PropsRead PropsDepth PropsAllStar PropsRecover PropsCache.
Local Open Scope nat_scope.
Opaque parser_atn lex_p calls_p gen_p asks tokens.

(** The report of errors: whatever the tokens are, the parser makes at most 1216 predictions per token (and 1222 more). *)
Theorem C73_reporting : forall q, asks (calls_p (tokens q)) <= 1216 * List.length (tokens q) + 1222.
Proof. intros q. pose proof (asks_calls (tokens q) (tokens_eof q)). lia. Qed.
(** Every text, well-formed or not: the number of simulations (tokens matched, decisions predicted) grows at most linearly with its length, *)
Theorem C73_predictions : forall E P q, asks (parse_p E P q) <= 2500 * (List.length q + 2).
Proof.
  intros E P q. unfold parse_p. rewrite asks_bind, lex_eval. change (lex_loop (List.length q) 0 1 0 q) with (lexemes q). cbv zeta. change (lx_tokens (lexemes q) ++ [eof_token q]) with (tokens q). rewrite asks_bind, calls_eval.
  change (interleave (tokens q) (parser_calls (tokens q)) (lx_errors (lexemes q))) with (antlr_calls q). pose proof (asks_lex (List.length q) 0 1 0 q) as HL. pose proof (C73_reporting q) as HC. pose proof (tokens_length q) as HT.
  destruct (antlr_calls q) as [|x l] eqn:Ea; cbn [map].
  - rewrite asks_bind. Transparent asks. cbn [asks]. Opaque asks. destruct (proj1 (C64_raises q) Ea) as [_ Hc]. destruct (C61_accepts q Hc) as (t & Ht & Hg). pose proof (asks_gen_query (tokens q) _ _ (tokens_eof q) Hg) as HG. lia.
  - Transparent asks. cbn [asks]. Opaque asks. lia.
Qed.
(** none of them sees more than the rest of the text (or of the tokens, the end of input included), *)
Theorem C73_inputs : forall E P q, wide (List.length q + 1) (parse_p E P q).
Proof.
  intros E P q. unfold parse_p. pose proof (tokens_length q) as HT. apply wide_bind; [apply wide_lex; lia|]. rewrite lex_eval. change (lex_loop (List.length q) 0 1 0 q) with (lexemes q). cbv zeta. change (lx_tokens (lexemes q) ++ [eof_token q]) with (tokens q).
  apply wide_bind; [apply (wide_mono (List.length (tokens q))); [exact HT|apply wide_calls]|]. destruct (map (syntaxError q) _); [|exact I].
  apply wide_bind; [apply (wide_mono (List.length (tokens q))); [exact HT|apply wide_gen]|exact I].
Qed.
Opaque wide.
(** and a call is over after [(150 * (n + 2))^2] steps of its own (reads and writes of the shared tables), where [n] is the length of the
    text: whatever the text is, whatever the tables hold, whatever the other threads do meanwhile. *)
Theorem C73_quadratic : forall E P q l1 l2, let i := List.length (calls_of l1) in let m := 150 * (List.length q + 2) in
  m * m <= List.length (filter (is_step_of i) l2) -> ~ In (PKill i) l2 ->
  nth_error (process E (l1 ++ PStart P q :: l2)) i = Some (Finished _ _ _ _ (errors_after (antlr_env E) P q, parse (antlr_env E) P q)).
Proof.
  intros E P q l1 l2 i m Hm. apply C71_bounded. fold i. etransitivity; [|exact Hm]. unfold m. pose proof (cost_asks _ _ (C73_inputs E P q)) as HA. pose proof (C73_predictions E P q) as HB. 
  etransitivity; [exact HA|]. clear -HB. set (n := List.length q) in *. clearbody n. set (a := asks _) in *. clearbody a. nia.
Qed.
(** ** Witnesses *)
Lemma steps_enough i n : List.length (filter (is_step_of i) (repeat (PStep i) n)) = n /\ ~ In (PKill i) (repeat (PStep i) n).
Proof.
  split; [|intros H; apply repeat_spec in H; discriminate]. induction n as [|n IH]; [reflexivity|]. cbn [repeat filter is_step_of]. rewrite Nat.eqb_refl. cbn [List.length]. rewrite IH. reflexivity.
Qed.
(** The quadratic bound is met: here by the first call of a process, and by one that starts when another is half done. *)
Example C73_witness : forall q n, (150 * (List.length q + 2)) * (150 * (List.length q + 2)) <= n ->
  nth_error (process env0 (PStart default_parser q :: repeat (PStep 0) n)) 0 = Some (Finished _ _ _ _ (errors_after (antlr_env env0) default_parser q, parse (antlr_env env0) default_parser q)) /\
  nth_error (process env0 ([PStart default_parser (u "('a'"); PStep 0; PStep 0; PStep 0] ++ PStart default_parser q :: repeat (PStep 1) n)) 1 = Some (Finished _ _ _ _ (errors_after (antlr_env env0) default_parser q, parse (antlr_env env0) default_parser q)).
Proof.
  intros q n H. split.
  - destruct (steps_enough 0 n) as [H1 H2]. apply (C73_quadratic env0 default_parser q [] (repeat (PStep 0) n)); [change (List.length (calls_of [])) with 0; rewrite H1; exact H|exact H2].
  - destruct (steps_enough 1 n) as [H1 H2]. apply (C73_quadratic env0 default_parser q [PStart default_parser (u "('a'"); PStep 0; PStep 0; PStep 0] (repeat (PStep 1) n)); [change (List.length (calls_of _)) with 1; rewrite H1; exact H|exact H2].
Qed.
Transparent parser_atn lex_p calls_p gen_p asks tokens.
(** How many there really are: the first two texts are queries, the others are not. *)
Example C73_counts : map (fun q => asks (parse_p env0 default_parser q)) [u "('a')"; u "[x='b' & y='c']"; u "('a'"; u "[x='b' &"; u "]'a' 'b'"] = [7; 23; 3; 7; 5].
Proof. vm_compute. reflexivity. Qed.
Print Assumptions C73_reporting. Print Assumptions C73_predictions. Print Assumptions C73_inputs. Print Assumptions C73_quadratic.
