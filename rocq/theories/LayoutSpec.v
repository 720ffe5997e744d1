(** Specification: moving the source locations of a tree. *)
From Verif Require Import Base Ast.
Local Open Scope Z_scope.

(** Every location [a..b] becomes [f a..g b]. *)
Fixpoint relocate (f g : Z -> Z) (n : qnode) : qnode :=
  match n with
  | QN p l ch => QN p (option_map (fun l => mkLoc (f (l_start l)) (g (l_stop l))) l) (map (relocate f g) ch)
  end.
(** Where the characters from offset [i] on are moved by [k]: starts and (exclusive) ends. *)
Definition moved_start (i k a : Z) : Z := if Z_lt_dec a i then a else a + k.
Definition moved_stop (i k b : Z) : Z := if Z_le_dec b i then b else b + k.
