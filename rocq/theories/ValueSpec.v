(** Specification of the values read from tokens: literals, flags, integers, quantifiers. *)
From Coq Require Import String.
From Verif Require Import Base LexRules Lexer Ast Builder LitSpec.
Local Open Scope Z_scope.

(** [w] is a quoted literal that stands for the text [v]. *)
Definition literal_means (w v : pystr) : Prop :=
  exists q es, (q = 34 \/ q = 39)%N /\ Forall (elem_ok q) es /\ w = lit_text q es /\ lit_value es = Some v.
Definition decodable (w : pystr) : Prop := exists v, literal_means w v.

(** The chosen Unicode normal form, or the text itself if none is chosen. *)
Definition normalised (E : penv) (C : pcfg) (v : pystr) : pystr :=
  match unicode_normalization_form C with Some f => env_normalize E f v | None => v end.

(** Flag letters. *)
Definition flag_meaning (c : N) : option flag :=
  (if (c =? 105) || (c =? 99) then Some CASE_INSENSITIVE           (* i c *)
   else if (c =? 73) || (c =? 67) then Some CASE_SENSITIVE         (* I C *)
   else if c =? 108 then Some LITERAL_MATCHING                     (* l *)
   else if c =? 100 then Some IGNORE_DIACRITICS                    (* d *)
   else None)%N.
(** [S] is the set of flags named by the letters of [w]. *)
Definition flags_denote (w : pystr) (S : flags) : Prop :=
  forall f, flag_in f S = true <-> exists c, In c w /\ flag_meaning c = Some f.
Definition consistent (S : flags) : Prop :=
  ~ (flag_in CASE_INSENSITIVE S = true /\ flag_in CASE_SENSITIVE S = true) /\
  (flag_in LITERAL_MATCHING S = true -> forall f, flag_in f S = true -> f = LITERAL_MATCHING).
Definition flags_ok (w : pystr) : Prop := exists S, flags_denote w S /\ consistent S.

(** Integers within the interpreter's digit limit. *)
Definition int_ok (E : penv) (w : pystr) : Prop := env_max_digits E = 0 \/ zlen w <= env_max_digits E.

(** Quantifiers: the tokens after an item and the bounds they stand for
    ([OCCURS_UNBOUNDED] = -1 for "no upper bound"). *)
Definition is_tok (ty : ttype) (t : token) : Prop := t_type t = ty.
Definition int_tok (n : Z) (t : token) : Prop := t_type t = INTEGER /\ dec_value (t_text t) = n.
Inductive quantified : list token -> Z -> Z -> Prop :=
| q_none : quantified [] 1 1
| q_star t : is_tok Q_ZERO_OR_MORE t -> quantified [t] 0 OCCURS_UNBOUNDED
| q_plus t : is_tok Q_ONE_OR_MORE t -> quantified [t] 1 OCCURS_UNBOUNDED
| q_opt t : is_tok Q_ZERO_OR_ONE t -> quantified [t] 0 1
| q_exact l i r n : is_tok L_CURLY_BRACKET l -> int_tok n i -> is_tok R_CURLY_BRACKET r ->
    quantified [l; i; r] n n
| q_min l i c r n : is_tok L_CURLY_BRACKET l -> int_tok n i -> is_tok Q_COMMA c -> is_tok R_CURLY_BRACKET r ->
    quantified [l; i; c; r] n OCCURS_UNBOUNDED
| q_max l c i r m : is_tok L_CURLY_BRACKET l -> is_tok Q_COMMA c -> int_tok m i -> is_tok R_CURLY_BRACKET r ->
    quantified [l; c; i; r] 0 m
| q_range l i c j r n m : is_tok L_CURLY_BRACKET l -> int_tok n i -> is_tok Q_COMMA c -> int_tok m j ->
    is_tok R_CURLY_BRACKET r -> n <= m -> quantified [l; i; c; j; r] n m.
