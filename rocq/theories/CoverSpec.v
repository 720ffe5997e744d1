(** Specification for C17, C20, C25: leaves, groups, object graphs. *)
From Coq Require Import String.
From Verif Require Import Base LexRules Lexer Ast Builder LitSpec ValueSpec.
Local Open Scope Z_scope.

(** The literals and empty bracket pairs of a token sequence, in order: [Some k] for a
    literal, [None] for an empty bracket pair. *)
Definition leaf_at (t : token) (rest : list token) : list (option token) :=
  match t_type t, rest with
  | REGEXP, _ => [Some t]
  | L_SQUARE_BRACKET, r :: _ => if ttype_eq_dec (t_type r) R_SQUARE_BRACKET then [None] else []
  | _, _ => []
  end.
Fixpoint query_leaves (ts : list token) : list (option token) :=
  match ts with [] => [] | t :: r => leaf_at t r ++ query_leaves r end.
(** The expressions and wildcards of a tree, left to right. *)
Fixpoint tree_leaves (n : qnode) : list payload :=
  match n with
  | QN p _ ch =>
      match p with PExpr _ _ _ _ _ | PWildcard => [p] | _ => [] end ++ flat_map tree_leaves ch
  end.
(** An expression leaf carries the normalised meaning of its literal. *)
Definition same_leaf (E : penv) (C : pcfg) (k : option token) (p : payload) : Prop :=
  match k, p with
  | Some k, PExpr _ _ _ v _ => exists w, literal_means (t_text k) w /\ v = normalised E C w
  | None, PWildcard => True
  | _, _ => False
  end.

(** The opening parentheses of a token sequence, in order: inside brackets or not, and
    where. *)
Fixpoint query_parens (inside : bool) (ts : list token) : list (bool * Z) :=
  match ts with
  | [] => []
  | t :: r =>
      match t_type t with
      | L_SQUARE_BRACKET => query_parens true r
      | R_SQUARE_BRACKET => query_parens false r
      | L_PAREN => (inside, t_start t) :: query_parens inside r
      | _ => query_parens inside r
      end
  end.
(** The group nodes of a tree, parents first, left to right: ExpressionGroup or QueryGroup. *)
Fixpoint tree_groups (n : qnode) : list (bool * option sloc) :=
  match n with
  | QN p l ch =>
      match p with PExprGroup => [(true, l)] | PQGroup _ _ => [(false, l)] | _ => [] end ++ flat_map tree_groups ch
  end.
Definition same_paren (k : bool * Z) (g : bool * option sloc) : Prop :=
  fst k = fst g /\ exists stop, snd g = Some (mkLoc (snd k) stop).

(** Object [id] of the heap [h] is the tree [n]; [ids] are the objects of the tree (parents
    first); every child's parent is the object that lists it. *)
Inductive represents (h : heap) : nat -> qnode -> list nat -> Prop :=
| rep_node id x p l ch ids : nth_error h id = Some x -> h_payload x = p -> h_loc x = l ->
    rep_children h id (h_children x) ch ids -> represents h id (QN p l ch) (id :: ids)
with rep_children (h : heap) : nat -> list nat -> list qnode -> list nat -> Prop :=
| rc_nil id : rep_children h id [] [] []
| rc_cons id c x cs n ns ids ids' : nth_error h c = Some x -> h_parent x = Some id ->
    represents h c n ids -> rep_children h id cs ns ids' ->
    rep_children h id (c :: cs) (n :: ns) (ids ++ ids').
Scheme represents_mind := Minimality for represents Sort Prop
  with rep_children_mind := Minimality for rep_children Sort Prop.
Combined Scheme represents_mutind from represents_mind, rep_children_mind.
