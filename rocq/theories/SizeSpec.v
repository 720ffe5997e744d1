(** Specification: how large results are. *)
From Verif Require Import Base LexRules Lexer Grammar Antlr Ast.

(** The number of nodes of a tree; for parse trees including their tokens. *)
Fixpoint qsize (n : qnode) : nat := match n with QN _ _ ch => S (list_sum (map qsize ch)) end.
Fixpoint psize (t : ptree) : nat := match t with Leaf _ => 1 | Node _ ch => S (list_sum (map psize ch)) end.
(** The number of tokens of a query, white space and the end not counted. *)
Definition token_count (q : pystr) : nat := length (lx_tokens (lexemes q)).
