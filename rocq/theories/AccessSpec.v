(** Specification for C28-C36: node types, handlers, traversal order. *)
From Coq Require Import String.
From Verif Require Import Base Ast.
Local Open Scope Z_scope.

(** The member of QueryNodeType named after a class (the documented type). *)
Definition own_type (c : class) : node_type :=
  match c with
  | CExpression => EXPRESSION | CExpressionWildcard => EXPRESSION_WILDCARD
  | CExpressionGroup => EXPRESSION_GROUP | CExpressionNot => EXPRESSION_NOT
  | CExpressionAnd => EXPRESSION_AND | CExpressionOr => EXPRESSION_OR
  | CQueryDisjunction => QUERY_DISJUNCTION | CQuerySequence => QUERY_SEQUENCE
  | CQueryWithWithin => QUERY_WITH_WITHIN | CQuerySegment => QUERY_SEGMENT
  | CQueryGroup => QUERY_GROUP | CSimpleWithin => SIMPLE_WITHIN
  end.

(** The children of class [c], in order. *)
Definition children_of_class (c : class) (n : qnode) : list qnode :=
  filter (fun m => if class_eq_dec (q_class m) c then true else false) (q_children n).

(** The nodes of a tree, parents before children, children left to right. *)
Fixpoint preorder (n : qnode) : list qnode := match n with QN _ _ ch => n :: flat_map preorder ch end.

(** The node classes whose adapter method visiting never reaches: their
    [node_type] is displayed without the class prefix. *)
Definition unreachable_handler : list class :=
  [CExpressionWildcard; CExpressionGroup; CExpressionNot; CExpressionAnd; CExpressionOr; CQueryGroup].
