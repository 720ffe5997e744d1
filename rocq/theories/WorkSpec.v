(** What parsing costs: how often a call simulates a DFA (a token matched by the lexer, a prediction of the parser), and on how much input. *)
From Verif Require Import Base AllStar Cache Cached.

(** The simulations a call asks for, one after the other, when each is answered as the DFA without any table answers it. *)
Fixpoint asks {A} (p : dprog A) : nat :=
  match p with Ret _ _ _ _ _ => O | Ask _ _ _ _ d w k => S (asks (k (dwalk (dstart d) w))) end.
(** Each has at most [M] symbols (characters, tokens) in front of it. *)
Fixpoint wide {A} (M : nat) (p : dprog A) : Prop :=
  match p with Ret _ _ _ _ _ => True | Ask _ _ _ _ d w k => length w <= M /\ wide M (k (dwalk (dstart d) w)) end.
