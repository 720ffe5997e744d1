(** Specification of the token classes, in characters, independent of the
    grammar's regular expressions. *)
From Coq Require Import String.
From Verif Require Import Base LexRules Ast LitSpec ValueSpec SpellSpec.

Definition letter (c : N) : Prop := (97 <= c <= 122 \/ 65 <= c <= 90)%N.
Definition digit (c : N) : Prop := (48 <= c <= 57)%N.
(** Unicode White_Space. *)
Definition white_space (c : N) : Prop :=
  (9 <= c <= 13 \/ c = 32 \/ c = 133 \/ c = 160 \/ c = 5760 \/ 8192 <= c <= 8202 \/
   c = 8232 \/ c = 8233 \/ c = 8239 \/ c = 8287 \/ c = 12288)%N.

(** [w] can be read as a token of type [ty]. *)
Definition spelled (ty : ttype) (w : pystr) : Prop :=
  match ty with
  | L_PAREN => w = u "(" | R_PAREN => w = u ")"
  | L_SQUARE_BRACKET => w = u "[" | R_SQUARE_BRACKET => w = u "]"
  | OR => w = u "|" | AND => w = u "&" | NOT => w = u "!" | FWD_SLASH => w = u "/"
  | L_CURLY_BRACKET => w = u "{" | R_CURLY_BRACKET => w = u "}"
  | Q_ONE_OR_MORE => w = u "+" | Q_ZERO_OR_MORE => w = u "*" | Q_ZERO_OR_ONE => w = u "?"
  | Q_COMMA => w = u "," | OPERATOR_EQ => w = u "=" | OPERATOR_NE => w = u "!="
  | COLON => w = u ":" | WITHIN => w = u "within"
  | SIMPLE_WITHIN_SCOPE => exists sc, scope_word w sc
  | REGEXP_FLAGS => w <> [] /\ Forall (fun c => flag_meaning c <> None) w
  | IDENTIFIER => (* a letter; then letters, digits and hyphens, not ending in a hyphen *)
      exists c w', w = c :: w' /\ letter c /\ Forall (fun x => letter x \/ digit x \/ x = 45%N) w' /\
        forall w0, w <> w0 ++ u "-"
  | INTEGER => w <> [] /\ Forall digit w
  | REGEXP | QUOTED_STRING => is_literal w
  | Space => exists c, w = [c] /\ white_space c
  | EOF => False
  end.

(** Which type is preferred for a text that can be read in several ways. *)
Definition preference : list ttype :=
  [L_PAREN; R_PAREN; L_SQUARE_BRACKET; R_SQUARE_BRACKET; OR; AND; NOT; FWD_SLASH; L_CURLY_BRACKET;
   R_CURLY_BRACKET; Q_ONE_OR_MORE; Q_ZERO_OR_MORE; Q_ZERO_OR_ONE; Q_COMMA; OPERATOR_EQ; OPERATOR_NE;
   COLON; WITHIN; SIMPLE_WITHIN_SCOPE; REGEXP_FLAGS; IDENTIFIER; INTEGER; REGEXP; QUOTED_STRING; Space].
Definition preferred (w : pystr) (ty : ttype) : Prop :=
  spelled ty w /\ forall l1 l2 ty', preference = l1 ++ ty :: l2 -> In ty' l1 -> ~ spelled ty' w.
