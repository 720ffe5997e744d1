(** Specification: moving the source locations of a tree, and the parts of a tree that matter when query texts are put together. *)
From Verif Require Import Base Ast Builder Parser.
Local Open Scope Z_scope.

Definition move_loc (k : Z) (l : sloc) : sloc := mkLoc (l_start l + k) (l_stop l + k).
(** The same tree, all source locations moved by [k] characters. *)
Fixpoint move_locs (k : Z) (n : qnode) : qnode :=
  match n with QN p l ch => QN p (option_map (move_loc k) l) (map (move_locs k) ch) end.

(** The location [[a, b)], for a parser that keeps locations. *)
Definition located (P : qparser) (a b : Z) : option sloc := if enableSourceLocations (qp_cfg P) then Some (mkLoc a b) else None.
(** From the start of one location to the end of another. *)
Definition between (l l' : option sloc) : option sloc :=
  match l, l' with Some a, Some b => Some (mkLoc (l_start a) (l_stop b)) | _, _ => None end.

(** The items of a query without alternatives: those of its sequence, or the query itself. *)
Definition items_of (n : qnode) : list qnode :=
  match n with QN PSequence _ ch => ch | _ => [n] end.
(** The alternatives of a query: those of its disjunction, else one: a group counts as a sequence of one item. *)
Definition operands_of (n : qnode) : list qnode :=
  match n with
  | QN PDisjunction _ ch => ch
  | QN (PQGroup _ _) l _ => [QN PSequence l [n]]
  | _ => [n]
  end.
(** What stands between the parentheses of a group: a disjunction or a sequence. *)
Definition content_of (n : qnode) : qnode :=
  match n with
  | QN PDisjunction _ _ | QN PSequence _ _ => n
  | _ => QN PSequence (q_loc n) [n]
  end.
(** A sequence of one item, on its own, is that item. *)
Definition unwrapped (n : qnode) : qnode :=
  match n with QN PSequence _ [c] => c | _ => n end.
