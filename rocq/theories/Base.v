(** Python values used by the model: strings, slices, exceptions.

    A Python [str] is a list of code points (as antlr4's [InputStream] and
    Python's own indexing see it).  Offsets are code-point offsets. *)
From Coq Require Export List NArith ZArith Bool Lia.
From Coq Require Import String Ascii.
Export ListNotations.

Definition pystr := list N.

(** Source text of a constant: ["abc"] in the Python source. *)
Fixpoint u (s : string) : pystr :=
  match s with
  | EmptyString => []
  | String c r => N_of_ascii c :: u r
  end.
Arguments u !s : simpl nomatch.

(** A string whose elements are Unicode code points: every Python [str]. *)
Definition is_pystr (s : pystr) : Prop := Forall (fun c => (c <= 1114111)%N) s.

(** [a == b] on [str]. *)
Fixpoint str_eqb (a b : pystr) : bool :=
  match a, b with
  | [], [] => true
  | x :: a', y :: b' => N.eqb x y && str_eqb a' b'
  | _, _ => false
  end.

(** [s in l] for a list (or tuple) of strings. *)
Definition str_in (s : pystr) (l : list pystr) : bool := existsb (str_eqb s) l.

(** [c in s] for a single character. *)
Definition char_in (c : N) (s : pystr) : bool := existsb (N.eqb c) s.

(** [s.startswith(p)]. *)
Fixpoint startswith (p s : pystr) : bool :=
  match p, s with
  | [], _ => true
  | x :: p', y :: s' => N.eqb x y && startswith p' s'
  | _ :: _, [] => false
  end.

(** [s.endswith(c)] for a one-character [c]. *)
Definition endswith_char (c : N) (s : pystr) : bool :=
  match rev s with [] => false | x :: _ => N.eqb x c end.

Definition zlen (s : pystr) : Z := Z.of_nat (List.length s).

(** [s[a:b]]: Python clips both bounds, negative ones count from the end. *)
Definition slice_index (n i : Z) : Z := (if i <? 0 then Z.max 0 (i + n) else Z.min i n)%Z.
Definition slice (s : pystr) (a b : Z) : pystr :=
  let a' := slice_index (zlen s) a in
  let b' := slice_index (zlen s) b in
  firstn (Z.to_nat (b' - a')) (skipn (Z.to_nat a') s).

(** Truthiness of [Optional[str]]: [None] and [""] are false. *)
Definition truthy (o : option pystr) : bool :=
  match o with Some (_ :: _) => true | _ => false end.

(** [str.isspace]: non-empty and all characters white space (Unicode
    bidirectional class WS/B/S or category Zs). *)
Definition is_space_char (c : N) : bool :=
  ((9 <=? c) && (c <=? 13) || (28 <=? c) && (c <=? 32) || (c =? 133) || (c =? 160) || (c =? 5760)
   || (8192 <=? c) && (c <=? 8202) || (c =? 8232) || (c =? 8233) || (c =? 8239) || (c =? 8287)
   || (c =? 12288))%N.
Definition isspace (s : pystr) : bool :=
  match s with [] => false | _ => forallb is_space_char s end.

(** Decimal and hexadecimal rendering of integers ([f"{n}"], [f"{n:X}"]). *)
From Coq Require DecimalString HexadecimalString.
Definition dec (z : Z) : pystr := u (DecimalString.NilZero.string_of_int (Z.to_int z)).
Definition hex_upper (n : N) : pystr :=
  map (fun c => if (97 <=? c)%N && (c <=? 102)%N then (c - 32)%N else c)
      (u (HexadecimalString.NilZero.string_of_uint (N.to_hex_uint n))).

(** ["sep".join(l)]. *)
Fixpoint join (sep : pystr) (l : list pystr) : pystr :=
  match l with
  | [] => []
  | [x] => x
  | x :: l' => x ++ sep ++ join sep l'
  end.

(** Exceptions as values. *)
Inductive exn :=
| BuilderError (msg : pystr)      (* ExpressionTreeBuilderException, parser.py:1024 *)
| QueryParserError (msg : pystr)  (* QueryParserException, parser.py:1020 *)
| SyntaxErrorExn                  (* fcsql.SyntaxError, __init__.py:25 *)
| ValueErrorExn (msg : pystr)     (* ValueError *)
| TypeErrorExn (msg : pystr)      (* TypeError *)
| IndexError | AssertionError | AttributeError | OverflowError
| OutOfFuel.                      (* artefact of the model; proved unreachable *)

Inductive res (A : Type) : Type := Ok (a : A) | Raise (e : exn).
Arguments Ok {A} a.
Arguments Raise {A} e.

Definition rbind {A B} (m : res A) (f : A -> res B) : res B :=
  match m with Ok a => f a | Raise e => Raise e end.
Definition rmap {A B} (f : A -> B) (m : res A) : res B :=
  match m with Ok a => Ok (f a) | Raise e => Raise e end.
