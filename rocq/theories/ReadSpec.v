(** Specification: the documented reading of a query, as an unambiguous grammar.  Inside brackets
    [!] binds strongest, then [&], then [|]; operators are n-ary and never nested directly; outside
    brackets a lone item stands for itself, several items form a sequence, and so on. *)
From Coq Require Import String.
From Verif Require Import Base LexRules Lexer Ast Builder LitSpec ValueSpec SpellSpec TreeSpec LevelSpec.
Local Open Scope Z_scope.

Section Reading.
  Variables (E : penv) (C : pcfg).

  (** Between brackets: level = term | ... | term, term = factor & ... & factor. *)
  Inductive rd_level : list token -> qnode -> Prop :=
  | rl_one ts n : rd_term ts n -> rd_level ts n
  | rl_or ts ns : rd_terms ts ns -> (2 <= List.length ns)%nat -> rd_level ts (QN POr (span ts) ns)
  with rd_terms : list token -> list qnode -> Prop :=
  | rts_one ts n : rd_term ts n -> rd_terms ts [n]
  | rts_more ts n k ts' ns : rd_term ts n -> is_tok OR k -> rd_terms ts' ns -> rd_terms (ts ++ k :: ts') (n :: ns)
  with rd_term : list token -> qnode -> Prop :=
  | rt_one ts n : rd_factor ts n -> rd_term ts n
  | rt_and ts ns : rd_factors ts ns -> (2 <= List.length ns)%nat -> rd_term ts (QN PAnd (span ts) ns)
  with rd_factors : list token -> list qnode -> Prop :=
  | rfs_one ts n : rd_factor ts n -> rd_factors ts [n]
  | rfs_more ts n k ts' ns : rd_factor ts n -> is_tok AND k -> rd_factors ts' ns -> rd_factors (ts ++ k :: ts') (n :: ns)
  with rd_factor : list token -> qnode -> Prop :=
  | rf_basic ta o tr q i op v fl : sp_attr ta q i -> sp_op o op -> sp_regex E C tr v fl ->
      rd_factor (ta ++ o :: tr) (QN (PExpr q i op v fl) (span (ta ++ o :: tr)) [])
  | rf_group l ts r n : is_tok L_PAREN l -> rd_level ts n -> is_tok R_PAREN r ->
      rd_factor (l :: ts ++ [r]) (QN PExprGroup (span (l :: ts ++ [r])) [n])
  | rf_not k ts n : is_tok NOT k -> rd_factor ts n -> rd_factor (k :: ts) (QN PNot (span (k :: ts)) [n]).

  (** Outside: an item is a literal, empty brackets, brackets or a parenthesised group, with its repetition. *)
  Inductive rd_item : list token -> qnode -> Prop :=
  | ri_literal tr tq v fl mn mx : sp_regex E C tr v fl -> quantified tq mn mx ->
      rd_item (tr ++ tq)
        (QN (PSegment mn mx) (span (tr ++ tq))
           [QN (PExpr None (default_identifier C) (default_operator C) v fl) (span tr) []])
  | ri_wildcard l r tq mn mx : is_tok L_SQUARE_BRACKET l -> is_tok R_SQUARE_BRACKET r -> quantified tq mn mx ->
      rd_item (l :: r :: tq) (QN (PSegment mn mx) (span (l :: r :: tq)) [QN PWildcard (span [l; r]) []])
  | ri_segment l te r tq n mn mx : is_tok L_SQUARE_BRACKET l -> rd_level te n -> is_tok R_SQUARE_BRACKET r ->
      quantified tq mn mx -> rd_item (l :: te ++ r :: tq) (QN (PSegment mn mx) (span (l :: te ++ r :: tq)) [n])
  | ri_group l tc r tq n mn mx : is_tok L_PAREN l -> rd_content tc n -> is_tok R_PAREN r ->
      quantified tq mn mx -> rd_item (l :: tc ++ r :: tq) (QN (PQGroup mn mx) (span (l :: tc ++ r :: tq)) [n])
  with rd_seq : list token -> list qnode -> Prop :=
  | rq_one ts n : rd_item ts n -> rd_seq ts [n]
  | rq_more ts n ts' ns : rd_item ts n -> rd_seq ts' ns -> rd_seq (ts ++ ts') (n :: ns)
  (** An operand of [|]: a single segment as it is, anything else as the sequence of its items. *)
  with rd_operand : list token -> qnode -> Prop :=
  | ro_segment ts n : rd_item ts n -> q_class n = CQuerySegment -> rd_operand ts n
  | ro_seq ts ns : rd_seq ts ns -> (forall n, ns = [n] -> q_class n <> CQuerySegment) -> rd_operand ts (QN PSequence (span ts) ns)
  with rd_operands : list token -> list qnode -> Prop :=
  | ros_one ts n : rd_operand ts n -> rd_operands ts [n]
  | ros_more ts n k ts' ns : rd_operand ts n -> is_tok OR k -> rd_operands ts' ns -> rd_operands (ts ++ k :: ts') (n :: ns)
  (** Between parentheses. *)
  with rd_content : list token -> qnode -> Prop :=
  | rc_seq ts ns : rd_seq ts ns -> rd_content ts (QN PSequence (span ts) ns)
  | rc_or ts ns : rd_operands ts ns -> (2 <= List.length ns)%nat -> rd_content ts (QN PDisjunction (span ts) ns).

  (** A whole query without its within part: a single item stands for itself. *)
  Inductive rd_main : list token -> qnode -> Prop :=
  | rm_item ts n : rd_item ts n -> rd_main ts n
  | rm_seq ts ns : rd_seq ts ns -> (2 <= List.length ns)%nat -> rd_main ts (QN PSequence (span ts) ns)
  | rm_or ts ns : rd_operands ts ns -> (2 <= List.length ns)%nat -> rd_main ts (QN PDisjunction (span ts) ns).
  Inductive rd_query : list token -> qnode -> Prop :=
  | ry_plain ts n e : rd_main ts n -> is_tok EOF e -> rd_query (ts ++ [e]) n
  | ry_within ts n w k sc e : rd_main ts n -> is_tok WITHIN w -> is_tok SIMPLE_WITHIN_SCOPE k ->
      scope_word (t_text k) sc -> is_tok EOF e ->
      rd_query (ts ++ [w; k; e]) (QN PWithWithin (span (ts ++ [w; k])) [n; QN (PSimpleWithin sc) (span [k]) []]).
End Reading.

Scheme rd_level_mind := Minimality for rd_level Sort Prop
  with rd_terms_mind := Minimality for rd_terms Sort Prop
  with rd_term_mind := Minimality for rd_term Sort Prop
  with rd_factors_mind := Minimality for rd_factors Sort Prop
  with rd_factor_mind := Minimality for rd_factor Sort Prop.
Combined Scheme rd_level_mutind from rd_level_mind, rd_terms_mind, rd_term_mind, rd_factors_mind, rd_factor_mind.
Scheme rd_item_mind := Minimality for rd_item Sort Prop
  with rd_seq_mind := Minimality for rd_seq Sort Prop
  with rd_operand_mind := Minimality for rd_operand Sort Prop
  with rd_operands_mind := Minimality for rd_operands Sort Prop
  with rd_content_mind := Minimality for rd_content Sort Prop.
Combined Scheme rd_item_mutind from rd_item_mind, rd_seq_mind, rd_operand_mind, rd_operands_mind, rd_content_mind.

(** The levels of a tree: per term of the level the number of negations in front of each factor
    (the counterpart of [shape] on trees). *)
Definition terms_of (n : qnode) : list qnode := match q_payload n with POr => q_children n | _ => [n] end.
Definition factors_of (n : qnode) : list qnode := match q_payload n with PAnd => q_children n | _ => [n] end.
Fixpoint nots_of (n : qnode) : nat := match n with QN PNot _ [c] => S (nots_of c) | _ => 0%nat end.
Definition tree_shape (n : qnode) : list (list nat) := map (fun t => map nots_of (factors_of t)) (terms_of n).
(** No level of the tree is one of the deviating ones of C19. *)
Definition no_deviation (n : qnode) : Prop :=
  forall m c, subnode m n -> q_class m = CExpressionGroup \/ q_class m = CQuerySegment -> q_children m = [c] ->
  forall i, ~ deviates (tree_shape c) i.
