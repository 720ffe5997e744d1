(** Specification: queries with holes for literals. *)
From Verif Require Import Base LexRules Lexer Ast Builder LitSpec ValueSpec SpellSpec ConfigSpec.

(** [p0 hole p1 hole p2 ...] with the holes filled in. *)
Fixpoint fill {A} (p : list A) (holes parts : list (list A)) : list A :=
  match holes, parts with
  | w :: ws, p' :: ps => p ++ w ++ fill p' ws ps
  | _, _ => p
  end.

(** How many literals a text contains, and the values of the expressions of a tree, from left to right. *)
Definition literal_count (s : pystr) : nat :=
  length (filter (fun t => if ttype_eq_dec (t_type t) REGEXP then true else false) (lx_tokens (lexemes s))).
Fixpoint values (n : qnode) : list pystr :=
  match n with
  | QN p _ ch => match p with PExpr _ _ _ v _ => [v] | _ => [] end ++ flat_map values ch
  end.
(** A tree without the values of its expressions and without source locations. *)
Definition outline (n : qnode) : qnode := erase (map_regex (fun _ => []) n).
