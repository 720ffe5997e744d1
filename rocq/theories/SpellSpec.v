(** Specification of the meaning of queries: which token sequence stands for
    which tree.  (Ambiguous on purpose, like FCSParser.g4: which reading is
    chosen is the subject of the precedence theorems.) *)
From Coq Require Import String.
From Verif Require Import Base LexRules Lexer Ast Builder LitSpec ValueSpec.
Local Open Scope Z_scope.

(** The part of the query text from the first to the last token. *)
Definition span (ts : list token) : option sloc :=
  match ts with
  | [] => None
  | a :: _ => Some (mkLoc (t_start a) (t_stop (last ts a) + 1))
  end.

(** A tree without its source locations. *)
Fixpoint erase (n : qnode) : qnode :=
  match n with QN p _ ch => QN p None (map erase ch) end.

(** Tokens that may serve as a layer name. *)
Definition name_tok (t : token) : Prop :=
  In (t_type t) [IDENTIFIER; WITHIN; SIMPLE_WITHIN_SCOPE; REGEXP_FLAGS].

(** [identifier] or [qualifier:identifier] *)
Inductive sp_attr : list token -> option pystr -> pystr -> Prop :=
| sa_plain i : name_tok i -> sp_attr [i] None (t_text i)
| sa_qual q c i : name_tok q -> is_tok COLON c -> name_tok i ->
    sp_attr [q; c; i] (Some (t_text q)) (t_text i).

Inductive sp_op : token -> operator -> Prop :=
| so_eq t : is_tok OPERATOR_EQ t -> sp_op t EQUALS
| so_ne t : is_tok OPERATOR_NE t -> sp_op t NOT_EQUALS.

(** The documented within scopes. *)
Inductive scope_word : pystr -> scope -> Prop :=
| sw_s1 : scope_word (u "sentence") SENTENCE | sw_s2 : scope_word (u "s") SENTENCE
| sw_u1 : scope_word (u "utterance") UTTERANCE | sw_u2 : scope_word (u "u") UTTERANCE
| sw_p1 : scope_word (u "paragraph") PARAGRAPH | sw_p2 : scope_word (u "p") PARAGRAPH
| sw_t1 : scope_word (u "turn") TURN | sw_t2 : scope_word (u "t") TURN
| sw_text : scope_word (u "text") TEXT
| sw_session : scope_word (u "session") SESSION.

Section Spells.
  Variables (E : penv) (C : pcfg).

  (** A literal with optional flags. *)
  Inductive sp_regex : list token -> pystr -> option flags -> Prop :=
  | sr_plain k v : is_tok REGEXP k -> literal_means (t_text k) v ->
      sp_regex [k] (normalised E C v) None
  | sr_flags k s f v S : is_tok REGEXP k -> is_tok FWD_SLASH s -> is_tok REGEXP_FLAGS f ->
      literal_means (t_text k) v -> flags_denote (t_text f) S -> consistent S ->
      sp_regex [k; s; f] (normalised E C v) (Some S).

  (** What stands between brackets. *)
  Inductive sp_expr : list token -> qnode -> Prop :=
  | se_basic ta o tr q i op v fl :
      sp_attr ta q i -> sp_op o op -> sp_regex tr v fl ->
      sp_expr (ta ++ o :: tr) (QN (PExpr q i op v fl) (span (ta ++ o :: tr)) [])
  | se_group l ts r n : is_tok L_PAREN l -> sp_expr ts n -> is_tok R_PAREN r ->
      sp_expr (l :: ts ++ [r]) (QN PExprGroup (span (l :: ts ++ [r])) [n])
  | se_not k ts n : is_tok NOT k -> sp_expr ts n -> sp_expr (k :: ts) (QN PNot (span (k :: ts)) [n])
  | se_and ts ns : sp_exprs AND ts ns -> (2 <= List.length ns)%nat ->
      (forall n, In n ns -> q_payload n <> PAnd) ->
      (forall n, hd_error ns = Some n -> q_payload n <> POr) ->
      sp_expr ts (QN PAnd (span ts) ns)
  | se_or ts ns : sp_exprs OR ts ns -> (2 <= List.length ns)%nat ->
      (forall n, In n ns -> q_payload n <> POr) ->
      sp_expr ts (QN POr (span ts) ns)
  with sp_exprs : ttype -> list token -> list qnode -> Prop :=
  | ses_one sep ts n : sp_expr ts n -> sp_exprs sep ts [n]
  | ses_more sep ts n k ts' ns : sp_expr ts n -> is_tok sep k -> sp_exprs sep ts' ns ->
      sp_exprs sep (ts ++ k :: ts') (n :: ns).

  (** Items, sequences, alternatives. *)
  Inductive sp_item : list token -> qnode -> Prop :=
  | si_literal tr tq v fl mn mx : sp_regex tr v fl -> quantified tq mn mx ->
      sp_item (tr ++ tq)
        (QN (PSegment mn mx) (span (tr ++ tq))
           [QN (PExpr None (default_identifier C) (default_operator C) v fl) (span tr) []])
  | si_wildcard l r tq mn mx : is_tok L_SQUARE_BRACKET l -> is_tok R_SQUARE_BRACKET r ->
      quantified tq mn mx ->
      sp_item (l :: r :: tq)
        (QN (PSegment mn mx) (span (l :: r :: tq)) [QN PWildcard (span [l; r]) []])
  | si_segment l te r tq n mn mx : is_tok L_SQUARE_BRACKET l -> sp_expr te n -> is_tok R_SQUARE_BRACKET r ->
      quantified tq mn mx ->
      sp_item (l :: te ++ r :: tq) (QN (PSegment mn mx) (span (l :: te ++ r :: tq)) [n])
  | si_group l tc r tq n mn mx : is_tok L_PAREN l -> sp_content tc n -> is_tok R_PAREN r ->
      quantified tq mn mx ->
      sp_item (l :: tc ++ r :: tq) (QN (PQGroup mn mx) (span (l :: tc ++ r :: tq)) [n])
  with sp_seq : list token -> list qnode -> Prop :=
  | sq_one ts n : sp_item ts n -> sp_seq ts [n]
  | sq_more ts n ts' ns : sp_item ts n -> sp_seq ts' ns -> sp_seq (ts ++ ts') (n :: ns)
  with sp_alts : list token -> list qnode -> Prop :=
  | sal_one ts n : sp_operand ts n -> sp_alts ts [n]
  | sal_more ts n k ts' ns : sp_operand ts n -> is_tok OR k -> sp_alts ts' ns ->
      sp_alts (ts ++ k :: ts') (n :: ns)
  with sp_operand : list token -> qnode -> Prop :=
  | sop_item ts n : sp_item ts n -> sp_operand ts n
  | sop_seq ts ns : sp_seq ts ns -> sp_operand ts (QN PSequence (span ts) ns)
  with sp_content : list token -> qnode -> Prop :=
  | sc_seq ts ns : sp_seq ts ns -> sp_content ts (QN PSequence (span ts) ns)
  | sc_alts ts ns : sp_alts ts ns -> (2 <= List.length ns)%nat ->
      sp_content ts (QN PDisjunction (span ts) ns).

  Inductive sp_main : list token -> qnode -> Prop :=
  | sm_item ts n : sp_item ts n -> sp_main ts n
  | sm_content ts n : sp_content ts n -> sp_main ts n.

  (** Whole queries (with the EOF token). *)
  Inductive sp_query : list token -> qnode -> Prop :=
  | sqy_plain ts n e : sp_main ts n -> is_tok EOF e -> sp_query (ts ++ [e]) n
  | sqy_within ts n w k sc e : sp_main ts n -> is_tok WITHIN w -> is_tok SIMPLE_WITHIN_SCOPE k ->
      scope_word (t_text k) sc -> is_tok EOF e ->
      sp_query (ts ++ [w; k; e])
        (QN PWithWithin (span (ts ++ [w; k])) [n; QN (PSimpleWithin sc) (span [k]) []]).
End Spells.

(** Conditions on token texts beyond the grammar. *)
Definition texts_ok (E : penv) (ts : list token) : Prop :=
  (forall t, In t ts -> t_type t = REGEXP -> decodable (t_text t)) /\
  (forall pre s f post, ts = pre ++ s :: f :: post -> t_type s = FWD_SLASH -> t_type f = REGEXP_FLAGS ->
     flags_ok (t_text f)) /\
  (forall t, In t ts -> t_type t = INTEGER -> int_ok E (t_text t)) /\
  (forall pre a c b post, ts = pre ++ a :: c :: b :: post ->
     t_type a = INTEGER -> t_type c = Q_COMMA -> t_type b = INTEGER ->
     dec_value (t_text a) <= dec_value (t_text b)).

Scheme sp_expr_mind := Minimality for sp_expr Sort Prop
  with sp_exprs_mind := Minimality for sp_exprs Sort Prop.
Combined Scheme sp_expr_mutind from sp_expr_mind, sp_exprs_mind.
Scheme sp_item_mind := Minimality for sp_item Sort Prop
  with sp_seq_mind := Minimality for sp_seq Sort Prop
  with sp_alts_mind := Minimality for sp_alts Sort Prop
  with sp_operand_mind := Minimality for sp_operand Sort Prop
  with sp_content_mind := Minimality for sp_content Sort Prop.
Combined Scheme sp_item_mutind from sp_item_mind, sp_seq_mind, sp_alts_mind, sp_operand_mind, sp_content_mind.
