(** What a syntax error message is made of (property C65). *)
From Coq Require Import String Sorting.Sorted.
From Verif Require Import Base LexRules Lexer Grammar Antlr GramSpec GenParser.
Local Open Scope Z_scope.

(** Token types that begin a valid query. *)
Definition beginning (w : list ttype) : Prop := exists ts z, conforms ts /\ map t_type ts = w ++ z.

(** The name of a token type in a message: the literal for types that are written in one way only, else the name in FCSLexer.g4. *)
Definition token_name (t : ttype) : string :=
  match t with
  | EOF => "<EOF>"
  | L_PAREN => "'('" | R_PAREN => "')'" | L_SQUARE_BRACKET => "'['" | R_SQUARE_BRACKET => "']'"
  | OR => "'|'" | AND => "'&'" | NOT => "'!'" | FWD_SLASH => "'/'"
  | L_CURLY_BRACKET => "'{'" | R_CURLY_BRACKET => "'}'" | Q_ONE_OR_MORE => "'+'" | Q_ZERO_OR_MORE => "'*'" | Q_ZERO_OR_ONE => "'?'" | Q_COMMA => "','"
  | OPERATOR_EQ => "'='" | OPERATOR_NE => "'!='" | COLON => "':'" | WITHIN => "'within'"
  | SIMPLE_WITHIN_SCOPE => "SIMPLE_WITHIN_SCOPE" | REGEXP_FLAGS => "REGEXP_FLAGS" | IDENTIFIER => "IDENTIFIER" | INTEGER => "INTEGER"
  | REGEXP => "REGEXP" | QUOTED_STRING => "QUOTED_STRING" | Space => "Space"
  end.
(** One type is named alone, more are listed in braces. *)
Inductive listed : list ttype -> pystr -> Prop :=
| ls_one t : listed [t] (u (token_name t))
| ls_more t l s : l <> [] -> items l s -> listed (t :: l) (u "{" ++ u (token_name t) ++ s ++ u "}")
with items : list ttype -> pystr -> Prop :=
| it_nil : items [] []
| it_cons t l s : items l s -> items (t :: l) (u ", " ++ u (token_name t) ++ s).
(** In the order of their numbers in FCSParser.tokens, each once; the end of the input first. *)
Definition in_order : list ttype -> Prop := StronglySorted (fun a b => tnum a < tnum b).
