(** Specification of acceptance. *)
From Verif Require Import Base LexRules Lexer Ast Builder GramSpec ValueSpec SpellSpec Parser.

(** The result of [P.parse(q)]. *)
Definition parse (V : env) (P : qparser) (q : pystr) : res qnode := snd (parser_parse V P q).
(** [.errors] after [P.parse(q)]. *)
Definition errors_after (V : env) (P : qparser) (q : pystr) : list error_detail := qp_errors (fst (parser_parse V P q)).

(** A query without lexical error whose tokens conform to FCSParser.g4. *)
Definition well_formed (q : pystr) : Prop := lex_errors q = [] /\ conforms (tokens q).
(** ... and whose literals, flags and repetition bounds are acceptable. *)
Definition accepted (V : env) (q : pystr) : Prop := well_formed q /\ texts_ok (e_penv V) (tokens q).
