(** Displaying parse trees: what [examples/run_parse.py:14-20] and the debug log of
    [QueryParser.parse] (parser.py:1731-1734) print, [tree.toStringTree(FCSParser.ruleNames)],
    and [ctx.getSourceInterval()] (examples/run_parse.py:21-63). *)
From Coq Require Import String.
From Verif Require Import Base LexRules Lexer Grammar Antlr ContextData.

(** antlr4 Utils.escapeWhitespace(s, False), called by Trees.toStringTree for parser.py:1733:
    tab, line feed and carriage return become two characters. *)
Definition escape_char (c : N) : pystr :=
  (if c =? 9 then [92; 116] else if c =? 10 then [92; 110] else if c =? 13 then [92; 114] else [c])%N.
Definition escape_ws (s : pystr) : pystr := flat_map escape_char s.

(** [FCSParser.ruleNames[ctx.getRuleIndex()]], FCSParser.py:115-144 *)
Definition rule_name (r : rule) : pystr := nth (rule_index r) rule_names [].

(** antlr4 Trees.toStringTree as called at parser.py:1733 and examples/run_parse.py:17.
    (Error nodes do not occur in the trees returned by [antlr_parse]; alternative numbers are 0.) *)
Fixpoint to_string_tree (t : ptree) : pystr :=
  match t with
  | Leaf k => escape_ws (t_text k)
  | Node r [] => escape_ws (rule_name r)
  | Node r ch => u "(" ++ escape_ws (rule_name r) ++ u " " ++ join (u " ") (map to_string_tree ch) ++ u ")"
  end.

(** [token.tokenIndex] (antlr4 BufferedTokenStream.fetch): the number of tokens fetched before it.  A token
    is recognised by its start offset, which no two tokens of a query share. *)
Fixpoint index_from (i : Z) (k : token) (l : list token) : option Z :=
  match l with
  | [] => None
  | x :: l' => if Z.eqb (t_start x) (t_start k) then Some i else index_from (i + 1) k l'
  end.
Definition token_index (q : pystr) (k : token) : option Z := index_from 0 k (tokens q).
(** antlr4 ParserRuleContext.getSourceInterval, used at examples/run_parse.py:22-63. *)
Definition source_interval (q : pystr) (ctx : ptree) : option (Z * Z) :=
  match ctx_start ctx, ctx_stop ctx with
  | Some a, Some b =>
      match token_index q a, token_index q b with Some i, Some j => Some (i, j) | _, _ => None end
  | _, _ => Some ((-1), (-2))%Z
  end.
