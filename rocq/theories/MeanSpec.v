(** Specification: token sequences that say the same in different words. *)
From Coq Require Import String.
From Verif Require Import Base LexRules Lexer Ast Builder LitSpec ValueSpec SpellSpec.
Local Open Scope Z_scope.

(** Position by position the tokens have the same kind; literals stand for the same text, integers for the
    same number; layer names and qualifiers (tokens in front of [:], [=], [!=]) are the same; the letters
    after a slash name the same flags; the words after [within] name the same scope. *)
Definition says_same (E : penv) (l l' : list token) : Prop :=
  map t_type l = map t_type l' /\
  forall i a a', nth_error l i = Some a -> nth_error l' i = Some a' ->
    (t_type a = REGEXP -> exists v, literal_means (t_text a) v /\ literal_means (t_text a') v) /\
    (t_type a = INTEGER -> dec_value (t_text a) = dec_value (t_text a') /\ int_ok E (t_text a')) /\
    forall b b', nth_error l (S i) = Some b -> nth_error l' (S i) = Some b' ->
      (In (t_type b) [COLON; OPERATOR_EQ; OPERATOR_NE] -> t_text a = t_text a') /\
      (t_type a = FWD_SLASH -> t_type b = REGEXP_FLAGS -> exists S, flags_denote (t_text b) S /\ flags_denote (t_text b') S) /\
      (t_type a = WITHIN -> t_type b = SIMPLE_WITHIN_SCOPE -> exists sc, scope_word (t_text b) sc /\ scope_word (t_text b') sc).
