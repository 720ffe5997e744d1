(** Specification of how parser settings show in the result. *)
From Coq Require Import String.
From Verif Require Import Base LexRules Lexer Ast Builder.
Local Open Scope Z_scope.

(** Apply [f] to every regex of a tree. *)
Definition map_regex_payload (f : pystr -> pystr) (p : payload) : payload :=
  match p with PExpr q i o v fl => PExpr q i o (f v) fl | _ => p end.
Fixpoint map_regex (f : pystr -> pystr) (n : qnode) : qnode :=
  match n with QN p l ch => QN (map_regex_payload f p) l (map (map_regex f) ch) end.

(** The query text at the start of a location is a quote. *)
Definition at_quote (q : pystr) (l : sloc) : Prop :=
  slice q (l_start l) (l_start l + 1) = [34%N] \/ slice q (l_start l) (l_start l + 1) = [39%N].

(** Two trees of the query [q] that agree in everything except that the
    expressions written as a bare literal have the defaults of [C] and [C'] respectively. *)
Inductive same_but_defaults (q : pystr) (C C' : pcfg) : qnode -> qnode -> Prop :=
| sbd_bare l v fl : at_quote q l ->
    same_but_defaults q C C'
      (QN (PExpr None (default_identifier C) (default_operator C) v fl) (Some l) [])
      (QN (PExpr None (default_identifier C') (default_operator C') v fl) (Some l) [])
| sbd_node p l ch ch' : (class_of p = CExpression -> exists a, l = Some a /\ ~ at_quote q a) ->
    Forall2 (same_but_defaults q C C') ch ch' ->
    same_but_defaults q C C' (QN p l ch) (QN p l ch').
