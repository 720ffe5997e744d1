(** Specification of what the nodes of a tree have to do with the query. *)
From Coq Require Import String.
From Verif Require Import Base LexRules Lexer Ast Builder LitSpec ValueSpec SpellSpec.
Local Open Scope Z_scope.

(** [m] is a node of the tree [n]. *)
Inductive subnode (m : qnode) : qnode -> Prop :=
| sub_here : subnode m m
| sub_child p l ch c : In c ch -> subnode m c -> subnode m (QN p l ch).

Section Stands.
  Variables (E : penv) (C : pcfg).
  (** [stands ts n]: [n] is built from the tokens [ts]: a construct between
      brackets, a bare literal, empty brackets, an item, a sequence or
      disjunction, a scope word, or a whole query with a within clause. *)
  Inductive stands : list token -> qnode -> Prop :=
  | st_expr ts n : sp_expr E C ts n -> stands ts n
  | st_bare ts v fl : sp_regex E C ts v fl ->
      stands ts (QN (PExpr None (default_identifier C) (default_operator C) v fl) (span ts) [])
  | st_wildcard l r : is_tok L_SQUARE_BRACKET l -> is_tok R_SQUARE_BRACKET r ->
      stands [l; r] (QN PWildcard (span [l; r]) [])
  | st_item ts n : sp_item E C ts n -> stands ts n
  | st_content ts n : sp_content E C ts n -> stands ts n
  | st_scope k sc : is_tok SIMPLE_WITHIN_SCOPE k -> scope_word (t_text k) sc ->
      stands [k] (QN (PSimpleWithin sc) (span [k]) [])
  | st_within ts n w k sc : sp_main E C ts n -> is_tok WITHIN w -> is_tok SIMPLE_WITHIN_SCOPE k ->
      scope_word (t_text k) sc ->
      stands (ts ++ [w; k]) (QN PWithWithin (span (ts ++ [w; k])) [n; QN (PSimpleWithin sc) (span [k]) []]).
End Stands.

(** Where nodes sit: [sits pre ts post n]: in a query with the tokens
    [pre ++ ts ++ post], [n] is built from exactly [ts]; what comes directly before and
    after cannot belong to the same construct. *)
Definition quantifier_start : list ttype := [Q_ZERO_OR_MORE; Q_ONE_OR_MORE; Q_ZERO_OR_ONE; L_CURLY_BRACKET].
Definition next_not (l : list ttype) (post : list token) : Prop := forall s r, post = s :: r -> ~ In (t_type s) l.
(** What may stand before an item: nothing, an opening parenthesis, a vertical bar or the
    end of another item. *)
Definition item_end : list ttype :=
  [REGEXP; REGEXP_FLAGS; R_SQUARE_BRACKET; R_PAREN; Q_ZERO_OR_MORE; Q_ONE_OR_MORE; Q_ZERO_OR_ONE; R_CURLY_BRACKET].
Definition item_may_start (pre : list token) : Prop :=
  forall pre' p, pre = pre' ++ [p] -> In (t_type p) (L_PAREN :: OR :: item_end).
Section Sits.
  Variables (E : penv) (C : pcfg).
  Inductive sits : list token -> list token -> list token -> qnode -> Prop :=
  | sit_expr pre p ts s post n : sp_expr E C ts n ->
      In (t_type p) [L_SQUARE_BRACKET; L_PAREN; NOT; AND; OR] -> In (t_type s) [R_SQUARE_BRACKET; R_PAREN; AND; OR] ->
      sits (pre ++ [p]) ts (s :: post) n
  | sit_bare pre ts post v fl : sp_regex E C ts v fl -> next_not [FWD_SLASH] post -> item_may_start pre ->
      sits pre ts post (QN (PExpr None (default_identifier C) (default_operator C) v fl) (span ts) [])
  | sit_wildcard pre l r post : is_tok L_SQUARE_BRACKET l -> is_tok R_SQUARE_BRACKET r -> item_may_start pre ->
      sits pre [l; r] post (QN PWildcard (span [l; r]) [])
  | sit_item pre ts post n : sp_item E C ts n -> next_not (FWD_SLASH :: quantifier_start) post -> item_may_start pre -> sits pre ts post n
  | sit_content pre ts post n : sp_content E C ts n -> next_not (FWD_SLASH :: quantifier_start) post -> item_may_start pre -> sits pre ts post n
  | sit_scope pre w k sc : is_tok WITHIN w -> is_tok SIMPLE_WITHIN_SCOPE k -> scope_word (t_text k) sc ->
      sits (pre ++ [w]) [k] [] (QN (PSimpleWithin sc) (span [k]) [])
  | sit_within ts n w k sc : sp_main E C ts n -> is_tok WITHIN w -> is_tok SIMPLE_WITHIN_SCOPE k ->
      scope_word (t_text k) sc ->
      sits [] (ts ++ [w; k]) [] (QN PWithWithin (span (ts ++ [w; k])) [n; QN (PSimpleWithin sc) (span [k]) []]).
End Sits.
