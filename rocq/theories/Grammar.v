(** FCSParser.g4 transcribed as EBNF data. *)
From Verif Require Import LexRules.
From Coq Require Import List.
Import ListNotations.

(** Grammar rules, FCSParser.py:120-142 *)
Inductive rule :=
| query | main_query | query_disjunction | query_sequence | query_group | query_simple
| quantifier | query_implicit | query_segment | within_part | within_part_simple | expression
| expression_or | expression_and | expression_group | expression_not | expression_basic
| attribute | qualifier | identifier | regexp | regexp_pattern | regexp_flag.

Definition rule_eq_dec (a b : rule) : {a = b} + {a <> b}.
Proof. decide equality. Defined.
Definition rule_eqb (a b : rule) : bool := if rule_eq_dec a b then true else false.

(** EBNF right-hand sides.  [Al a b]: alternatives in order (an n-ary
    alternative is nested to the right); [Tk l]: one token out of a set. *)
Inductive ebnf :=
| Tk (l : list ttype)
| NT (r : rule)
| Sq (a b : ebnf)
| Al (a b : ebnf)
| Op (e : ebnf)       (* e? *)
| Pl (e : ebnf)       (* e+ *)
| St (e : ebnf).      (* e*, also the loop state inside e+ *)

Notation "a ;; b" := (Sq a b) (at level 60, right associativity).
Notation "a \/? b" := (Al a b) (at level 70, right associativity).

(** FCSParser.g4:8-140 *)
Definition body (r : rule) : ebnf :=
  match r with
  | query => (* 8-10 *)
      NT main_query ;; Op (Tk [WITHIN] ;; NT within_part) ;; Tk [EOF]
  | main_query => (* 13-18 *)
      NT query_simple \/? NT query_group \/? NT query_sequence \/? NT query_disjunction
  | query_disjunction => (* 21-24 *)
      (NT query_simple \/? NT query_sequence \/? NT query_group) ;;
      Pl (Tk [OR] ;; (NT query_simple \/? NT query_sequence \/? NT query_group))
  | query_sequence => (* 27-29 *)
      Pl (NT query_simple \/? NT query_group)
  | query_group => (* 32-34 *)
      Tk [L_PAREN] ;; (NT query_disjunction \/? NT query_sequence) ;; Tk [R_PAREN] ;;
      Op (NT quantifier)
  | query_simple => (* 37-39 *)
      (NT query_implicit \/? NT query_segment) ;; Op (NT quantifier)
  | quantifier => (* 42-48 *)
      Tk [Q_ONE_OR_MORE] \/? Tk [Q_ZERO_OR_MORE] \/? Tk [Q_ZERO_OR_ONE] \/?
      (Tk [L_CURLY_BRACKET] ;;
       (Tk [INTEGER] \/?
        (Op (Tk [INTEGER]) ;; Tk [Q_COMMA] ;; Tk [INTEGER]) \/?
        (Tk [INTEGER] ;; Tk [Q_COMMA] ;; Op (Tk [INTEGER]))) ;;
       Tk [R_CURLY_BRACKET])
  | query_implicit => (* 51-53 *) NT regexp
  | query_segment => (* 56-58 *)
      Tk [L_SQUARE_BRACKET] ;; Op (NT expression) ;; Tk [R_SQUARE_BRACKET]
  | within_part => (* 61-63 *) NT within_part_simple
  | within_part_simple => (* 66-68 *) Tk [SIMPLE_WITHIN_SCOPE]
  | expression => (* 73-79 *)
      NT expression_basic \/? NT expression_group \/? NT expression_or \/? NT expression_and \/?
      NT expression_not
  | expression_or => (* 82-85 *)
      (NT expression_basic \/? NT expression_group \/? NT expression_and \/? NT expression_not) ;;
      Pl (Tk [OR] ;;
          (NT expression_basic \/? NT expression_group \/? NT expression_and \/? NT expression_not))
  | expression_and => (* 92-95 *)
      (NT expression_basic \/? NT expression_group \/? NT expression_not) ;;
      Pl (Tk [AND] ;;
          (NT expression_basic \/? NT expression_group \/? NT expression_or \/? NT expression_not))
  | expression_group => (* 98-100 *)
      Tk [L_PAREN] ;;
      (NT expression_basic \/? NT expression_group \/? NT expression_or \/? NT expression_and \/?
       NT expression_not) ;;
      Tk [R_PAREN]
  | expression_not => (* 103-105 *)
      Tk [NOT] ;;
      (NT expression_basic \/? NT expression_group \/? NT expression_not \/? NT expression_or \/?
       NT expression_and)
  | expression_basic => (* 108-110 *)
      NT attribute ;; Tk [OPERATOR_EQ; OPERATOR_NE] ;; NT regexp
  | attribute => (* 113-115 *) Op (NT qualifier ;; Tk [COLON]) ;; NT identifier
  | qualifier => (* 118-120 *) Tk [IDENTIFIER; WITHIN; SIMPLE_WITHIN_SCOPE; REGEXP_FLAGS]
  | identifier => (* 123-125 *) Tk [IDENTIFIER; WITHIN; SIMPLE_WITHIN_SCOPE; REGEXP_FLAGS]
  | regexp => (* 128-130 *) NT regexp_pattern ;; Op (Tk [FWD_SLASH] ;; NT regexp_flag)
  | regexp_pattern => (* 133-135 *) Tk [REGEXP]
  | regexp_flag => (* 138-140 *) Tk [REGEXP_FLAGS]
  end.
