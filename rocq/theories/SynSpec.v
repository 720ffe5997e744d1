(** Specification: token sequences that are different wordings of one query. *)
From Verif Require Import Base LexRules Lexer Ast Builder LitSpec ValueSpec SpellSpec.
Local Open Scope Z_scope.

Section Wordings.
  Variables (E : penv) (C : pcfg).

  (** The tokens of a condition on one layer, with what they ask for: a literal alone asks the default layer. *)
  Inductive asks_for : list token -> payload -> Prop :=
  | af_literal tr v fl : sp_regex E C tr v fl -> asks_for tr (PExpr None (default_identifier C) (default_operator C) v fl)
  | af_brackets l ta o tr r q i op v fl : is_tok L_SQUARE_BRACKET l -> sp_attr ta q i -> sp_op o op -> sp_regex E C tr v fl ->
      is_tok R_SQUARE_BRACKET r -> asks_for (l :: (ta ++ o :: tr) ++ [r]) (PExpr q i op v fl).

  (** Between square brackets: the same parentheses and operators around comparisons of the same layer in the
      same way with the same text and flags. *)
  Inductive same_inside : list token -> list token -> Prop :=
  | si_nil : same_inside [] []
  | si_mark k k' x x' : In (t_type k) [L_PAREN; R_PAREN; AND; OR; NOT] -> t_type k' = t_type k -> same_inside x x' ->
      same_inside (k :: x) (k' :: x')
  | si_basic ta o tr ta' o' tr' q i op v fl x x' : sp_attr ta q i -> sp_attr ta' q i -> sp_op o op -> sp_op o' op ->
      sp_regex E C tr v fl -> sp_regex E C tr' v fl -> same_inside x x' ->
      same_inside ((ta ++ o :: tr) ++ x) ((ta' ++ o' :: tr') ++ x').

  (** Segments and groups: the same contents, repeated equally often. *)
  Inductive same_item : list token -> list token -> Prop :=
  | sit_asks c c' p tq tq' mn mx : asks_for c p -> asks_for c' p -> quantified tq mn mx -> quantified tq' mn mx ->
      same_item (c ++ tq) (c' ++ tq')
  | sit_any l r l' r' tq tq' mn mx : is_tok L_SQUARE_BRACKET l -> is_tok R_SQUARE_BRACKET r ->
      is_tok L_SQUARE_BRACKET l' -> is_tok R_SQUARE_BRACKET r' -> quantified tq mn mx -> quantified tq' mn mx ->
      same_item (l :: r :: tq) (l' :: r' :: tq')
  | sit_inside l te r l' te' r' tq tq' mn mx : is_tok L_SQUARE_BRACKET l -> is_tok R_SQUARE_BRACKET r ->
      is_tok L_SQUARE_BRACKET l' -> is_tok R_SQUARE_BRACKET r' -> (exists e, sp_expr E C te e) -> same_inside te te' ->
      quantified tq mn mx -> quantified tq' mn mx -> same_item (l :: te ++ r :: tq) (l' :: te' ++ r' :: tq')
  | sit_group l tc r l' tc' r' tq tq' mn mx : is_tok L_PAREN l -> is_tok R_PAREN r -> is_tok L_PAREN l' -> is_tok R_PAREN r' ->
      same_alts tc tc' -> quantified tq mn mx -> quantified tq' mn mx ->
      same_item (l :: tc ++ r :: tq) (l' :: tc' ++ r' :: tq')
  (** One after the other. *)
  with same_items : list token -> list token -> Prop :=
  | sis_one x x' : same_item x x' -> same_items x x'
  | sis_more x x' y y' : same_item x x' -> same_items y y' -> same_items (x ++ y) (x' ++ y')
  (** With [|] in between. *)
  with same_alts : list token -> list token -> Prop :=
  | sas_one x x' : same_items x x' -> same_alts x x'
  | sas_more x x' k k' y y' : same_items x x' -> is_tok OR k -> is_tok OR k' -> same_alts y y' ->
      same_alts (x ++ k :: y) (x' ++ k' :: y').

  Inductive same_query : list token -> list token -> Prop :=
  | sqr_plain x x' e e' : same_alts x x' -> is_tok EOF e -> is_tok EOF e' -> same_query (x ++ [e]) (x' ++ [e'])
  | sqr_within x x' w k e w' k' e' sc : same_alts x x' -> is_tok WITHIN w -> is_tok SIMPLE_WITHIN_SCOPE k -> scope_word (t_text k) sc ->
      is_tok WITHIN w' -> is_tok SIMPLE_WITHIN_SCOPE k' -> scope_word (t_text k') sc -> is_tok EOF e -> is_tok EOF e' ->
      same_query (x ++ [w; k; e]) (x' ++ [w'; k'; e']).
End Wordings.
