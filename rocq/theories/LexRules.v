(** FCSLexer.g4 transcribed as data (token types as in FCSLexer.tokens). *)
From Coq Require Import String.
From Verif Require Import Base Regex.
Local Open Scope N_scope.

(** Token types, FCSLexer.tokens:1-25 / FCSParser.py:152-178. *)
Inductive ttype :=
| EOF
| L_PAREN | R_PAREN | L_SQUARE_BRACKET | R_SQUARE_BRACKET | OR | AND | NOT | FWD_SLASH
| L_CURLY_BRACKET | R_CURLY_BRACKET | Q_ONE_OR_MORE | Q_ZERO_OR_MORE | Q_ZERO_OR_ONE | Q_COMMA
| OPERATOR_EQ | OPERATOR_NE | COLON | WITHIN | SIMPLE_WITHIN_SCOPE | REGEXP_FLAGS | IDENTIFIER
| INTEGER | REGEXP | QUOTED_STRING | Space.

Definition ttype_eq_dec (a b : ttype) : {a = b} + {a <> b}.
Proof. decide equality. Defined.
Definition ttype_eqb (a b : ttype) : bool := if ttype_eq_dec a b then true else false.

(** FCSLexer.g4:29-40 *)
Definition scope_words : list pystr :=
  map u ["sentence"; "s"; "utterance"; "u"; "paragraph"; "p"; "turn"; "t"; "text"; "session"]%string.

(** FCSLexer.g4:43-50: i I c C l d *)
Definition flag_chars : list (N * N) := [(105,105); (73,73); (99,99); (67,67); (108,108); (100,100)].

(** FCSLexer.g4:53-66 *)
Definition id_first : list (N * N) := [(97,122); (65,90)].
Definition id_last  : list (N * N) := [(97,122); (65,90); (48,57)].
Definition id_char  : list (N * N) := [(97,122); (65,90); (48,57); (45,45)].

(** FCSLexer.g4:142-144 *)
Definition hex_chars : list (N * N) := [(48,57); (97,102); (65,70)].
Definition HEX : regex := set hex_chars.

(** FCSLexer.g4:118-135: the one-character escapes
    (backslash, both quotes, n, t, dot and the regular expression operators). *)
Definition simple_escapes : list (N * N) :=
  [(92,92); (39,39); (34,34); (110,110); (116,116); (46,46); (94,94); (36,36); (42,42); (43,43);
   (63,63); (40,40); (41,41); (123,123); (125,125); (91,91); (93,93); (124,124)].

(** FCSLexer.g4:115-140 *)
Definition ESCAPED_CHAR : regex :=
  Cat (ch 92)
      (bars [ set simple_escapes;
              cats [ch 120; HEX; HEX];
              cats [ch 117; HEX; HEX; HEX; HEX];
              cats [ch 85; HEX; HEX; HEX; HEX; HEX; HEX; HEX; HEX] ]).

(** FCSLexer.g4:91-94 *)
Definition quoted (q : N) : regex :=
  cats [ch q; Rep (Bar ESCAPED_CHAR (nset [(q,q); (92,92)])); ch q].
Definition QUOTED : regex := Bar (quoted 39) (quoted 34).

(** FCSLexer.g4:108-112 *)
Definition ws_chars : list (N * N) :=
  [(9,9); (10,10); (11,11); (12,12); (13,13); (32,32); (133,133); (160,160); (5760,5760);
   (8192,8192); (8193,8193); (8194,8194); (8195,8195); (8196,8196); (8197,8197); (8198,8198);
   (8199,8199); (8200,8200); (8201,8201); (8202,8202); (8232,8232); (8233,8233); (8239,8239);
   (8287,8287); (12288,12288)].

(** The token rules in grammar order (fragments are inlined), FCSLexer.g4:9-149.
    [REGEXP : QUOTED_STRING] (78-80) precedes [QUOTED_STRING] (91-94). *)
Definition lex_rules : list (ttype * regex) :=
  [ (L_PAREN, ch 40); (R_PAREN, ch 41); (L_SQUARE_BRACKET, ch 91); (R_SQUARE_BRACKET, ch 93);
    (OR, ch 124); (AND, ch 38); (NOT, ch 33); (FWD_SLASH, ch 47); (L_CURLY_BRACKET, ch 123);
    (R_CURLY_BRACKET, ch 125); (Q_ONE_OR_MORE, ch 43); (Q_ZERO_OR_MORE, ch 42);
    (Q_ZERO_OR_ONE, ch 63); (Q_COMMA, ch 44); (OPERATOR_EQ, ch 61); (OPERATOR_NE, word (u "!="));
    (COLON, ch 58); (WITHIN, word (u "within"));
    (SIMPLE_WITHIN_SCOPE, bars (map word scope_words));
    (REGEXP_FLAGS, plus (set flag_chars));
    (IDENTIFIER, Cat (set id_first) (opt (Cat (Rep (set id_char)) (set id_last))));
    (INTEGER, plus (set [(48,57)]));
    (REGEXP, QUOTED);
    (QUOTED_STRING, QUOTED);
    (Space, set ws_chars) ].
