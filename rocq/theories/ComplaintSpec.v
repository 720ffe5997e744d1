(** Specification of what a well-formed but unusable query is rejected for. *)
From Coq Require Import String.
From Verif Require Import Base LexRules Lexer Ast Builder LitSpec ValueSpec.

(** Numerals in positional notation with base [b] (at most 16); capital letters
    for the digits above 9. *)
Definition digit_of (c : N) : option N :=
  (if (48 <=? c) && (c <=? 57) then Some (c - 48) else if (65 <=? c) && (c <=? 70) then Some (c - 55) else None)%N.
Inductive numeral (b : N) : pystr -> N -> Prop :=
| nm_nil : numeral b [] 0
| nm_digit w n c d : numeral b w n -> digit_of c = Some d -> (d < b)%N -> numeral b (w ++ [c]) (n * b + d).
(** The customary numeral: not empty, no leading zeros. *)
Definition written (b n : N) (w : pystr) : Prop :=
  numeral b w n /\ w <> [] /\ forall w', w = 48%N :: w' -> w' = [].

(** What is said about an element of a literal that cannot be decoded (interpreters
    before 3.13 report numbers beyond a C int in another way). *)
Inductive element_complaint (E : penv) : lit_elem -> pystr -> Prop :=
| ec_escape c : elem_value (ESimple c) = None ->
    element_complaint E (ESimple c) (u "invalid escape sequence: \" ++ [c])
| ec_codepoint k ds h : (1114111 < hex_value ds)%N -> (hex_value ds < 2 ^ 31)%N \/ env_chr_overflows E = false -> written 16 (hex_value ds) h ->
    element_complaint E (EHex k ds) (u "invalid codepoint: U+" ++ h)
| ec_huge k ds : (2 ^ 31 <= hex_value ds)%N -> env_chr_overflows E = true ->
    element_complaint E (EHex k ds) (u "an unexpected exception occured while parsing").

Definition has_flag (w : pystr) (f : flag) : Prop := exists c, In c w /\ flag_meaning c = Some f.

(** [complaint E ts m]: reading the tokens from the left, the last token of [ts]
    makes the query unusable, and [m] says why. *)
Inductive complaint (E : penv) : list token -> pystr -> Prop :=
(* the first element of a literal that cannot be decoded *)
| c_literal pre t q es1 e es2 m : t_type t = REGEXP -> (q = 34 \/ q = 39)%N -> Forall (elem_ok q) (es1 ++ e :: es2) ->
    t_text t = lit_text q (es1 ++ e :: es2) -> (forall e', In e' es1 -> elem_value e' <> None) -> element_complaint E e m ->
    complaint E (pre ++ [t]) m
(* both kinds of case sensitivity *)
| c_case pre s t : t_type s = FWD_SLASH -> t_type t = REGEXP_FLAGS ->
    has_flag (t_text t) CASE_SENSITIVE -> has_flag (t_text t) CASE_INSENSITIVE ->
    complaint E (pre ++ [s; t])
      (u "invalid combination of regex modifier flags: 'i' or 'c' and 'I' or 'C' are mutually exclusive")
(* literal matching together with another flag *)
| c_lit pre s t f : t_type s = FWD_SLASH -> t_type t = REGEXP_FLAGS ->
    ~ (has_flag (t_text t) CASE_SENSITIVE /\ has_flag (t_text t) CASE_INSENSITIVE) ->
    has_flag (t_text t) LITERAL_MATCHING -> has_flag (t_text t) f -> f <> LITERAL_MATCHING ->
    complaint E (pre ++ [s; t])
      (u "invalid combination of regex modifier flags: 'l' is mutually exclusive with 'i', 'c', 'I', 'C' or 'd'")
(* more digits than the interpreter converts *)
| c_integer pre t : t_type t = INTEGER -> ~ int_ok E (t_text t) ->
    complaint E (pre ++ [t]) (u "invalid integer: " ++ t_text t)
(* a range that ends before it begins *)
| c_range pre a c b x y dx dy : t_type a = INTEGER -> t_type c = Q_COMMA -> t_type b = INTEGER ->
    int_ok E (t_text a) -> int_ok E (t_text b) -> numeral 10 (t_text a) x -> numeral 10 (t_text b) y -> (y < x)%N ->
    written 10 x dx -> written 10 y dy ->
    complaint E (pre ++ [a; c; b]) (u "bad qualifier: min > max (" ++ dx ++ u " > " ++ dy ++ u ")").

(** No token of [ts] makes the query unusable. *)
Definition no_complaint (E : penv) (ts : list token) : Prop :=
  forall l r m, ts = l ++ r -> ~ complaint E l m.
(** [m] is about the first token that makes the query unusable. *)
Definition first_complaint (E : penv) (ts : list token) (m : pystr) : Prop :=
  exists l t r, ts = l ++ t :: r /\ no_complaint E l /\ complaint E (l ++ [t]) m.
