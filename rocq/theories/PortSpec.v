(** Specification for C76: trees that agree up to how values are normalised. *)
From Verif Require Import Base Ast Builder LitSpec ValueSpec.

(** The same tree (locations included); where one has the normalisation by [E] of a text the other has the normalisation by [E'] of that text. *)
Inductive same_but_values (E E' : penv) (C : pcfg) : qnode -> qnode -> Prop :=
| sbv_expression q i op x fl l : same_but_values E E' C (QN (PExpr q i op (normalised E C x) fl) l []) (QN (PExpr q i op (normalised E' C x) fl) l [])
| sbv_node p l ch ch' : class_of p <> CExpression -> Forall2 (same_but_values E E' C) ch ch' -> same_but_values E E' C (QN p l ch) (QN p l ch').
