(** Error handling of the generated parser: the [try .. except RecognitionException .. finally] around every rule method
    (e.g. FCSParser.py:244-250), [Parser.match], [Parser.consume] and [DefaultErrorStrategy] of antlr4-python3-runtime 4.13, as driven by
    [parser.query()] (parser.py:1729, __init__.py:50).  Simplification: the parse tree (with its error nodes) is not built here;
    whenever an error is reported the callers discard it. *)
From Coq Require Import String.
From Verif Require Import Base LexRules Lexer Grammar Antlr Ast Builder Parser GenParser Atn AllStar ContextData.
Local Open Scope Z_scope.

(** The parser while it runs: position in the token stream, the tokens from there on (ending in EOF), the number of tokens fetched from
    the lexer so far ([CommonTokenStream] fetches on demand), [errorRecoveryMode], [lastErrorIndex] (None: -1), [lastErrorStates],
    and the calls of the error listeners so far (latest first), each with the number of tokens fetched before it. *)
Record pst := mkPst {
  p_index : nat; p_rest : list token; p_fetched : nat;
  p_mode : bool; p_last : option nat; p_states : list Z;
  p_calls : list (nat * lcall) }.

(** RecognitionException: NoViableAltException (its offending token, counted from the current one) and InputMismatchException. *)
Inductive exn := ENoViable (n : nat) | EMismatch.
(** How a statement ends: normally, with an exception (and [self.state] at that time), without enough fuel. *)
Inductive rres := RNormal (s : pst) | RExn (s : pst) (n : Z) (e : exn) | RFuel.

Section Recover.
  Variable A : atn.

  (** [ATN.nextTokens(s)]: a token type, EPSILON *)
  Definition next_has (n : Z) (t : ttype) : bool :=
    existsb (fun p => existsb (fun e => matches A (fst e) (tnum t)) (out A (fst p))) (fst (inner A depth n)).
  Definition next_eps (n : Z) : bool := match snd (inner A depth n) with [] => false | _ => true end.
  (** [ATN.getExpectedTokens(state, ctx)] ([Parser.getExpectedTokens]), also [ATN.nextTokens(s, ctx)] with a context:
      what can follow, looking into the callers when the end of the rule can be reached; EOF after the outermost rule. *)
  Fixpoint after_rule (c : list Z) (t : ttype) : bool :=
    match c with
    | [] => ttype_eqb t EOF
    | i :: c' => next_has (follow_of A i) t || next_eps (follow_of A i) && after_rule c' t
    end.
  Definition expected (n : Z) (c : list Z) (t : ttype) : bool := next_has n t || next_eps n && after_rule c t.
  (** [getErrorRecoverySet] *)
  Definition recovery_set (c : list Z) (t : ttype) : bool := existsb (fun i => next_has (follow_of A i) t) c.

  (** [IntervalSet.toString(literalNames, symbolicNames)]: EOF (-1) comes first, then the types by number. *)
  Definition types_in_order : list ttype :=
    [EOF; L_PAREN; R_PAREN; L_SQUARE_BRACKET; R_SQUARE_BRACKET; OR; AND; NOT; FWD_SLASH; L_CURLY_BRACKET; R_CURLY_BRACKET; Q_ONE_OR_MORE;
     Q_ZERO_OR_MORE; Q_ZERO_OR_ONE; Q_COMMA; OPERATOR_EQ; OPERATOR_NE; COLON; WITHIN; SIMPLE_WITHIN_SCOPE; REGEXP_FLAGS; IDENTIFIER; INTEGER;
     REGEXP; QUOTED_STRING; Space].
  (** [IntervalSet.elementName] *)
  Definition element_name (t : ttype) : pystr :=
    match t with
    | EOF => u "<EOF>"
    | _ => let a := Z.to_nat (tnum t) in
           match nth_error literal_names a with
           | Some s => if str_eqb s (u "<INVALID>") then nth a symbolic_names (u "<UNKNOWN>") else s
           | None => nth a symbolic_names (u "<UNKNOWN>")
           end
    end.
  Fixpoint comma_sep (l : list pystr) : pystr :=
    match l with [] => [] | [s] => s | s :: l' => s ++ u ", " ++ comma_sep l' end.
  Definition set_text (p : ttype -> bool) : pystr :=
    let l := filter p types_in_order in
    let s := comma_sep (map element_name l) in
    match l with _ :: _ :: _ => u "{" ++ s ++ u "}" | _ => s end.
  (** [escapeWSAndQuote] *)
  Definition quoted (s : pystr) : pystr := u "'" ++ error_display s ++ u "'".

  (** [self._input.LT(k)] for k = n + 1 (the last token, EOF, when there are no more) *)
  Definition lt_ (n : nat) (s : pst) : token := nth n (p_rest s) (last (p_rest s) (mkTok EOF [] 0 0 0 0)).
  (** Tokens up to the [k]-th after the current one have been fetched. *)
  Definition fetch (k : nat) (s : pst) : pst :=
    mkPst (p_index s) (p_rest s) (Nat.max (p_fetched s) (p_index s + Nat.min k (length (p_rest s)))) (p_mode s) (p_last s) (p_states s) (p_calls s).
  (** [Parser.consume]: EOF is not passed; the next token is fetched. *)
  Definition consume (s : pst) : pst :=
    match p_rest s with
    | _ :: ((_ :: _) as r) =>
        fetch 1 (mkPst (S (p_index s)) r (p_fetched s) (p_mode s) (p_last s) (p_states s) (p_calls s))
    | _ => s
    end.
  (** [reportMatch] *)
  Definition report_match (s : pst) : pst := mkPst (p_index s) (p_rest s) (p_fetched s) false None [] (p_calls s).
  (** [beginErrorCondition], [Parser.notifyErrorListeners]; nothing is reported in error recovery mode *)
  Definition report (t : token) (msg : pystr) (s : pst) : pst :=
    if p_mode s then s
    else mkPst (p_index s) (p_rest s) (p_fetched s) true (p_last s) (p_states s)
               ((p_fetched s, mkCall (Some t) (t_line t) (t_col t) msg) :: p_calls s).
  (** [reportUnwantedToken], [reportMissingToken] *)
  Definition report_unwanted (n : Z) (c : list Z) (s : pst) : pst :=
    report (lt_ 0 s) (u "extraneous input " ++ quoted (t_text (lt_ 0 s)) ++ u " expecting " ++ set_text (expected n c)) s.
  Definition report_missing (n : Z) (c : list Z) (s : pst) : pst :=
    report (lt_ 0 s) (u "missing " ++ set_text (expected n c) ++ u " at " ++ quoted (t_text (lt_ 0 s))) s.
  (** [reportError]: [reportNoViableAlternative] (its call of [getText] fetches all tokens), [reportInputMismatch] *)
  Definition before_eof (l : list token) : list token :=
    (fix go l := match l with [] => [] | t :: l' => match t_type t with EOF => [] | _ => t :: go l' end end) l.
  Definition report_error (e : exn) (n : Z) (c : list Z) (s : pst) : pst :=
    match e with
    | ENoViable k =>
        let start_eof := match t_type (lt_ 0 s) with EOF => true | _ => false end in
        let s' := if p_mode s then s else if start_eof then s else fetch (length (p_rest s)) s in
        let input := if start_eof then u "<EOF>" else concat (map t_text (before_eof (firstn (S k) (p_rest s)))) in
        report (lt_ k s) (u "no viable alternative at input " ++ quoted input) s'
    | EMismatch =>
        report (lt_ 0 s) (u "mismatched input " ++ quoted (t_text (lt_ 0 s)) ++ u " expecting " ++ set_text (expected n c)) s
    end.
  (** [consumeUntil] *)
  Fixpoint until (stop : ttype -> bool) (k : nat) (s : pst) : pst :=
    match k with
    | O => s
    | S k' => if ttype_eqb (la1 (p_rest s)) EOF || stop (la1 (p_rest s)) then s else until stop k' (consume s)
    end.
  Definition consume_until (stop : ttype -> bool) (s : pst) : pst := until stop (length (p_rest s)) s.
  (** [recover] *)
  Definition recover (n : Z) (c : list Z) (s : pst) : pst :=
    let again := match p_last s with Some i => Nat.eqb i (p_index s) && existsb (Z.eqb n) (p_states s) | None => false end in
    let s := if again then consume s else s in
    consume_until (recovery_set c) (mkPst (p_index s) (p_rest s) (p_fetched s) (p_mode s) (Some (p_index s)) (n :: p_states s) (p_calls s)).
  (** [singleTokenDeletion] (the state afterwards, and whether the token was deleted) *)
  Definition delete (n : Z) (c : list Z) (s : pst) : pst * bool :=
    let s := fetch 2 s in
    if expected n c (t_type (lt_ 1 s)) then (report_match (consume (report_unwanted n c s)), true) else (s, false).
  (** [recoverInline]: deletion, insertion (the state after the first transition accepts the current token), or InputMismatchException *)
  Definition recover_inline (n : Z) (c : list Z) (s : pst) : rres :=
    let '(s, deleted) := delete n c s in
    if deleted then RNormal (consume s)
    else if expected (follow_of A n) c (t_type (lt_ 0 s)) then RNormal (report_missing n c s)
    else RExn s n EMismatch.
  Definition state_type (n : Z) : Z := match nth_error (a_states A) (Z.to_nat n) with Some q => s_type q | None => 0 end.
  (** [sync] *)
  Definition sync_ (n : Z) (c : list Z) (s : pst) (k : pst -> rres) : rres :=
    if p_mode s then k s
    else if next_has n (la1 (p_rest s)) || next_eps n then k s
    else if existsb (Z.eqb (state_type n)) [3; 4; 5; 10] then
      let '(s, deleted) := delete n c s in if deleted then k s else RExn s n EMismatch
    else if existsb (Z.eqb (state_type n)) [9; 11] then
      k (consume_until (fun t => expected n c t || recovery_set c t) (report_unwanted n c s))
    else k s.

  (** How many tokens [adaptivePredict] looks at (the recursion of [exec] and [exec_full] in AllStar.v). *)
  Fixpoint seen_full (prev : list conf) (w : list ttype) : nat :=
    match w with
    | [] => O
    | t :: w' =>
        match reach_set A true prev (tnum t) with
        | [] => 1%nat
        | ks => match unique_alt ks, resolves ks with None, None => S (seen_full ks w') | _, _ => 1%nat end
        end
    end.
  Fixpoint seen (full : list conf) (w0 : list ttype) (prev : list conf) (w : list ttype) (n : nat) : nat :=
    match w with
    | [] => n
    | t :: w' =>
        match reach_set A false prev (tnum t) with
        | [] => S n
        | ks => match unique_alt ks with
                | Some _ => S n
                | None => if sll_conflict A ks then Nat.max (seen_full full w0) (S n) else seen full w0 ks w' (S n)
                end
        end
    end.
  Definition lookahead (d : nat) (c : list Z) (w : list ttype) : nat :=
    let l := alternatives A d in
    seen (collect (starts A true (map (follow_of A) c) 1 l)) w (collect (starts A false [] 1 l)) w 0.
  (** [self._interp.adaptivePredict(self._input, d, self._ctx)] *)
  Definition predict_ (n : Z) (d : nat) (c : list Z) (s : pst) (k : nat -> pst -> rres) : rres :=
    let w := types_of (p_rest s) in
    let s := fetch (lookahead d c w) s in
    match adaptive_predict A d c w with Alt i => k i s | NoViable j => RExn s n (ENoViable j) end.

  Definition rthen (x : rres) (k : pst -> rres) : rres := match x with RNormal s => k s | e => e end.
  (** [except RecognitionException as re: reportError; recover] *)
  Definition caught (c : list Z) (x : rres) : rres :=
    match x with RExn s n e => RNormal (recover n c (report_error e n c s)) | x => x end.
  (** The statements of the rule methods (see [stm]). *)
  Fixpoint rrun (fuel : nat) (x : stm) (c : list Z) (s : pst) : rres :=
    match fuel with
    | O => RFuel
    | S f =>
        match x with
        | Match n t =>
            if ttype_eqb (la1 (p_rest s)) t then RNormal (consume (report_match s)) else recover_inline n c s
        | MatchSet n x _ =>
            if la_test x (la1 (p_rest s)) then RNormal (consume (report_match s)) else recover_inline n c s
        | Call n r => caught (n :: c) (rrun f (method r) (n :: c) s)
        | Seq a b => rthen (rrun f a c s) (rrun f b c)
        | Switch n cases =>
            sync_ n c s (fun s =>
              match find (fun k => la_test (fst k) (la1 (p_rest s))) cases with
              | Some k => rrun f (snd k) c s
              | None => RExn s n (ENoViable 0)
              end)
        | IfLa n x b => sync_ n c s (fun s => if la_test x (la1 (p_rest s)) then rrun f b c s else RNormal s)
        | Pred n d l =>
            sync_ n c s (fun s => predict_ n d c s (fun i s =>
              match i with
              | S j => match nth_error l j with Some b => rrun f b c s | None => RNormal s end
              | O => RNormal s
              end))
        | PredOpt n d b => sync_ n c s (fun s => predict_ n d c s (fun i s => if Nat.eqb i 1 then rrun f b c s else RNormal s))
        | DoLa n b m x => sync_ n c s (rrun f (LoopLa b m x) c)
        | DoPred n b m d => sync_ n c s (rrun f (LoopPred b m d) c)
        | LoopLa b m x =>
            rthen (rrun f b c s) (fun s => sync_ m c s (fun s =>
              if la_test x (la1 (p_rest s)) then rrun f (LoopLa b m x) c s else RNormal s))
        | LoopPred b m d =>
            rthen (rrun f b c s) (fun s => sync_ m c s (fun s => predict_ m d c s (fun i s =>
              if Nat.eqb i 1 then rrun f (LoopPred b m d) c s else RNormal s)))
        end
    end.
  (** [parser.query()] on a fresh parser: the first token is fetched by [enterRule]. *)
  Definition rstart (ts : list token) : pst := mkPst 0 ts 1 false None [] [].
  Definition recovering (ts : list token) : rres :=
    caught [] (rrun (2048 * S (length ts)) (method query) [] (rstart ts)).
End Recover.

(** The calls the parser makes to its listeners while it parses the tokens (in order). *)
Definition parser_calls (ts : list token) : list (nat * lcall) :=
  match recovering parser_atn ts with RNormal s => rev (p_calls s) | _ => [] end.
(** The listener is attached to the lexer too (parser.py:1718-1723): a lexical error is reported when the token behind it is fetched. *)
Fixpoint interleave (ts : list token) (calls : list (nat * lcall)) (errs : list lexerr) : list lcall :=
  match calls with
  | [] => map lexer_call errs
  | (k, c) :: calls' =>
      let here := fun e => le_start e <? t_start (nth (Nat.pred k) ts (last ts (mkTok EOF [] 0 0 0 0))) in
      map lexer_call (filter here errs) ++ c :: interleave ts calls' (filter (fun e => negb (here e)) errs)
  end.
Definition antlr_calls (q : pystr) : list lcall := interleave (tokens q) (parser_calls (tokens q)) (lex_errors q).
(** The environment in which no part of ANTLR is left open. *)
Definition antlr_env (E : penv) : env := mkEnv E antlr_calls.

(** The text of the exception [antlr_parse] raises (__init__.py:29-53): its listener is added to the parser only, and raises in the
    first call, which ends [parser.query()] (it is no RecognitionException). *)
Definition antlr_message (q : pystr) : option pystr :=
  match parser_calls (tokens q) with
  | [] => None
  | (_, c) :: _ => Some (u "line " ++ dec (lc_line c) ++ u ":" ++ dec (lc_column c) ++ u " " ++ lc_msg c)
  end.
