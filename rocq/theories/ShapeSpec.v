(** Specification for C77: trees of the same shape. *)
From Verif Require Import Base Ast.

Definition operator_of (p : payload) : option operator := match p with PExpr _ _ o _ _ => Some o | _ => None end.

(** Node by node the same class and the same operator; every location [a..b] of the first is [f a..g b] in the second. *)
Inductive same_shape (f g : Z -> Z) : qnode -> qnode -> Prop :=
| ss_node p p' l ch ch' : class_of p = class_of p' -> operator_of p = operator_of p' -> Forall2 (same_shape f g) ch ch' ->
    same_shape f g (QN p l ch) (QN p' (option_map (fun x => mkLoc (f (l_start x)) (g (l_stop x))) l) ch').

(** The same for parse trees: the same rules, over tokens of the same kinds. *)
From Verif Require Import Regex LexRules Lexer Grammar Antlr.
Inductive same_ptree : ptree -> ptree -> Prop :=
| sp_leaf k k' : t_type k = t_type k' -> same_ptree (Leaf k) (Leaf k')
| sp_rule r ch ch' : Forall2 same_ptree ch ch' -> same_ptree (Node r ch) (Node r ch').
