(** Specification of quoted literals: their elements and what each stands for. *)
From Coq Require Import String.
From Verif Require Import Base.

Inductive lit_elem :=
| EPlain (c : N)                   (* a character standing for itself *)
| ESimple (c : N)                  (* backslash c *)
| EHex (k : N) (digits : pystr).   (* backslash x/u/U and hexadecimal digits *)

(** Source text of an element. *)
Definition elem_text (e : lit_elem) : pystr :=
  match e with
  | EPlain c => [c]
  | ESimple c => [92%N; c]
  | EHex k ds => 92%N :: k :: ds
  end.

(** The characters that may follow a backslash on their own:
    backslash, both quotes, n, t and the regular expression operators. *)
Definition simple_escape_chars : pystr := u "\'nt.^$*+?(){}[]|" ++ [34%N].
Definition is_hex (c : N) : bool :=
  ((48 <=? c) && (c <=? 57) || (97 <=? c) && (c <=? 102) || (65 <=? c) && (c <=? 70))%N.
(** x takes 2, u 4, U 8 digits. *)
Definition hex_len (k : N) : option nat :=
  if N.eqb k 120 then Some 2 else if N.eqb k 117 then Some 4 else if N.eqb k 85 then Some 8 else None.

(** Elements that the grammar allows inside a literal quoted by [q]. *)
Definition elem_ok (q : N) (e : lit_elem) : Prop :=
  match e with
  | EPlain c => c <> q /\ c <> 92%N /\ (c <= 1114111)%N
  | ESimple c => In c simple_escape_chars
  | EHex k ds => hex_len k = Some (List.length ds) /\ Forall (fun d => is_hex d = true) ds
  end.

Definition lit_text (q : N) (es : list lit_elem) : pystr := q :: flat_map elem_text es ++ [q].
(** A quoted literal. *)
Definition is_literal (w : pystr) : Prop :=
  exists q es, (q = 34 \/ q = 39)%N /\ Forall (elem_ok q) es /\ w = lit_text q es.

(** Value of a hexadecimal digit string. *)
Definition hex_digit_val (c : N) : N :=
  (if c <=? 57 then c - 48 else if c <=? 70 then c - 55 else c - 87)%N.
Definition hex_value (ds : pystr) : N := fold_left (fun a c => a * 16 + hex_digit_val c)%N ds 0%N.

(** What an element stands for; [None]: cannot be decoded.  Newline and tab for
    n and t, the character itself for backslash and quotes; regular expression
    operators keep their backslash -- but the two closing brackets are missing. *)
Definition elem_value (e : lit_elem) : option pystr :=
  match e with
  | EPlain c => Some [c]
  | ESimple c =>
      if char_in c (u "\'" ++ [34%N]) then Some [c]
      else if N.eqb c 110 then Some [10%N]
      else if N.eqb c 116 then Some [9%N]
      else if char_in c (u ".^$*+?(){[|") then Some [92%N; c]
      else None
  | EHex _ ds => if (hex_value ds <=? 1114111)%N then Some [hex_value ds] else None
  end.

Fixpoint lit_value (es : list lit_elem) : option pystr :=
  match es with
  | [] => Some []
  | e :: es' => match elem_value e, lit_value es' with
                | Some a, Some b => Some (a ++ b)
                | _, _ => None
                end
  end.

(** Quoting a text: backslashes and the quote character get a backslash. *)
Definition quote_elem (q c : N) : lit_elem :=
  if N.eqb c 92 || N.eqb c q then ESimple c else EPlain c.
Definition quote_text (q : N) (s : pystr) : pystr :=
  q :: flat_map (fun c => if N.eqb c 92 || N.eqb c q then [92%N; c] else [c]) s ++ [q].
