(** Specification: how deep results are.  A Python program that walks a tree recursively (as the
    library's own parser, visitor and [__str__] methods do) needs one stack frame per level. *)
From Verif Require Import Base LexRules Lexer Grammar Antlr Ast SpellSpec LevelSpec.

(** The number of nodes on the longest path from the root to a leaf. *)
Fixpoint qheight (n : qnode) : nat := S (list_max (map qheight (q_children n))).
(** The same for parse trees; tokens do not count. *)
Fixpoint pheight (t : ptree) : nat :=
  match t with
  | Leaf _ => 0
  | Node _ ch => S (list_max (map pheight ch))
  end.

(** The largest number of brackets (round or square) open at the same time. *)
Fixpoint nesting_at (d : nat) (ts : list token) : nat :=
  match ts with
  | [] => d
  | t :: r => Nat.max d (nesting_at (depth_after d t) r)
  end.
Definition nesting (ts : list token) : nat := nesting_at 0 ts.

(** The number of [!]. *)
Definition negations (ts : list token) : nat := List.length (filter (fun t => ttype_eqb NOT (t_type t)) ts).

(** The largest number of bracketed nodes (segments and groups) on a path from the root. *)
Definition bracketed (p : payload) : bool :=
  match p with PSegment _ _ | PQGroup _ _ | PExprGroup => true | _ => false end.
Fixpoint brackets (n : qnode) : nat :=
  match n with QN p _ ch => (if bracketed p then 1 else 0) + list_max (map brackets ch) end.

(** The number of negations in a tree. *)
Fixpoint count_nots (n : qnode) : nat :=
  match n with QN p _ ch => (match p with PNot => 1 | _ => 0 end) + list_sum (map count_nots ch) end.

(** The leftmost operand of an expression is a negation. *)
Fixpoint starts_not (n : qnode) : Prop :=
  match n with
  | QN PNot _ _ => True
  | QN PAnd _ (c :: _) | QN POr _ (c :: _) => starts_not c
  | _ => False
  end.
