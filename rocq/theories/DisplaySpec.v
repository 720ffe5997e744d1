(** Specification: what is left of a parse tree when it is displayed. *)
From Verif Require Import Base LexRules Lexer Grammar Antlr.

(** Tab, line feed and carriage return are displayed as a backslash and a letter, everything else as it is. *)
Definition visible (s : pystr) : pystr :=
  flat_map (fun c => if N.eq_dec c 9 then [92; 116] else if N.eq_dec c 10 then [92; 110] else if N.eq_dec c 13 then [92; 114] else [c])%N s.
(** The tree with tokens reduced to their kinds and their visible texts: no positions, no layout. *)
Inductive shown := SToken (ty : ttype) (text : pystr) | SRule (r : rule) (parts : list shown).
Fixpoint show (t : ptree) : shown :=
  match t with
  | Leaf k => SToken (t_type k) (visible (t_text k))
  | Node r ch => SRule r (map show ch)
  end.
(** The tokens [i] to [j], both inclusive. *)
Definition between {A} (i j : Z) (l : list A) : list A := firstn (Z.to_nat (j - i + 1)) (skipn (Z.to_nat i) l).
