(** [QueryParser] and the module level functions [parse], [can_parse],
    [antlr_parse] (parser.py:936-1017, 1671-1756; __init__.py:25-90). *)
From Coq Require Import String.
From Verif Require Import Base LexRules Lexer Grammar Antlr Ast Builder.
Local Open Scope Z_scope.

(** A call of [ErrorListener.syntaxError(recognizer, offendingSymbol, line, column, msg, e)];
    [recognizer] and [e] are only used for logging. *)
Record lcall := mkCall { lc_token : option token; lc_line : Z; lc_column : Z; lc_msg : pystr }.

(** The environment of a parser: Unicode data and digit limit, and the calls ANTLR's
    error recovery makes to its listener for a query whose token sequence is
    not in the grammar (the recovery heuristics are not modelled; [env_ok] below
    is the contract they are used under). *)
Record env := mkEnv { e_penv : penv; e_calls : pystr -> list lcall }.

(** [Lexer.getErrorDisplay] *)
Definition error_display (s : pystr) : pystr :=
  flat_map (fun c => if N.eqb c 10 then u "\n" else if N.eqb c 9 then u "\t"
                     else if N.eqb c 13 then u "\r" else [c]) s.
(** [Lexer.notifyListeners]: no offending symbol, position of the token start. *)
Definition lexer_call (e : lexerr) : lcall :=
  mkCall None (le_line e) (le_col e)
         (u "token recognition error at: '" ++ error_display (le_text e) ++ u "'").

(** Contract of error recovery on a query outside the grammar: at least one
    syntax error is reported by the parser, every call is a lexical error
    or points at a token of the stream ([Parser.getCurrentToken]). *)
Definition env_ok (V : env) : Prop :=
  forall q, in_grammar (tokens q) = false ->
    (exists c, In c (e_calls V q) /\ lc_token c <> None) /\
    forall c, In c (e_calls V q) ->
      (exists e, In e (lex_errors q) /\ c = lexer_call e) \/
      (exists t, In t (tokens q) /\ lc_token c = Some t).

(** All listener calls during [parser.query()], parser.py:1716-1729.  In the grammar only
    the lexer complains (the whole input is read because [query] ends in EOF). *)
Definition listener_calls (V : env) (q : pystr) : list lcall :=
  if in_grammar (tokens q) then map lexer_call (lex_errors q) else e_calls V q.

(** [class ErrorDetail], parser.py:936-947 *)
Inductive position := PosInt (z : Z) | PosLoc (l : sloc).
Record error_detail := mkErr { ed_message : pystr; ed_type : option pystr;
                               ed_position : option position; ed_fragment : option pystr }.

(** [SourceLocation.fromToken], parser.py:368-377 *)
Definition fromToken (t : token) : option sloc :=
  if t_start t =? -1 then None else if t_stop t =? -1 then None
  else Some (mkLoc (t_start t) (t_stop t + 1)).

(** [ErrorListener.syntaxError], parser.py:956-993 *)
Definition syntaxError (q : pystr) (c : lcall) : error_detail :=
  match lc_token c with
  | Some t =>
      mkErr (lc_msg c) (Some (u "syntax-error")) (option_map PosLoc (fromToken t))
            (Some (slice q 0 (t_start t + zlen (t_text t))))
  | None => mkErr (lc_msg c) (Some (u "syntax-error")) (Some (PosInt (lc_column c))) None
  end.

(** [error_listener.errors] after [parser.query()]. *)
Definition syntax_errors (V : env) (q : pystr) : list error_detail :=
  map (syntaxError q) (listener_calls V q).

(** The exception handlers of [QueryParser.parse], parser.py:1748-1753 *)
Definition handle {A} (r : res A) : res A :=
  match r with
  | Ok a => Ok a
  | Raise (BuilderError m) => Raise (QueryParserError m)
  | Raise (QueryParserError m) => Raise (QueryParserError m)
  | Raise _ => Raise (QueryParserError (u "an unexpected exception occured while parsing"))
  end.

(** The [try] body, parser.py:1715-1747; [build] stands for the tree builder.
    [antlr_query] is [None] only outside the grammar (proved). *)
Definition parse_body {A} (build : ptree -> res A) (V : env) (q : pystr) : res A :=
  match syntax_errors V q with
  | [] => match antlr_query (tokens q) with
          | Some t => build t
          | None => Raise (QueryParserError (u "unable to parse query: ?"))
          end
  | e :: _ => Raise (QueryParserError (u "unable to parse query: " ++ ed_message e))
  end.

(** A [QueryParser] object and its [parse] method (with the [finally] clause),
    parser.py:1700-1756. *)
Record qparser := mkParser { qp_cfg : pcfg; qp_errors : list error_detail }.
Definition new_parser (C : pcfg) : qparser := mkParser C [].
Definition parser_parse (V : env) (P : qparser) (q : pystr) : qparser * res qnode :=
  (mkParser (qp_cfg P) (syntax_errors V q),
   handle (parse_body (build_tree (e_penv V) (qp_cfg P)) V q)).

(** The same with nodes as heap objects (for parent links). *)
Definition parser_parse_heap (V : env) (C : pcfg) (q : pystr) (h : heap) : res (nat * heap) :=
  handle (parse_body (fun t => build_heap (e_penv V) C t h) V q).

(** [fcsql.parse], __init__.py:59-74 *)
Definition fcsql_parse (V : env) (q : pystr) (locations : bool) : res qnode :=
  snd (parser_parse V (new_parser (default_cfg locations)) q).

(** [fcsql.can_parse], __init__.py:77-90: only QueryParserException is caught. *)
Definition can_parse (V : env) (q : pystr) : res bool :=
  match fcsql_parse V q true with
  | Ok _ => Ok true
  | Raise (QueryParserError _) => Ok false
  | Raise e => Raise e
  end.

(** [fcsql.antlr_parse], __init__.py:29-53: the raising listener is added to the
    parser only, so lexical errors do not raise.  Simplification: the message is dropped. *)
Definition antlr_parse (q : pystr) : res ptree :=
  match antlr_query (tokens q) with
  | Some t => Ok t
  | None => Raise SyntaxErrorExn
  end.
