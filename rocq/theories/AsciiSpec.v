(** Specification: printable ASCII texts. *)
From Coq Require Import String.
From Verif Require Import Base.

(** A character between the space and the tilde. *)
Definition printable (c : N) : Prop := (32 <= c /\ c <= 126)%N.
Definition printable_text (s : pystr) : Prop := Forall printable s.
