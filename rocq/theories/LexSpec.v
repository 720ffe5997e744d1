(** Specification of tokenisation, independent of derivatives. *)
From Verif Require Import Base Regex LexRules Lexer.

(** [w] is matched by some lexer rule. *)
Definition matched (w : pystr) : Prop := exists ty r, In (ty, r) lex_rules /\ lang r w.
(** [ty] is the first rule of the grammar that matches [w]. *)
Definition first_rule (w : pystr) (ty : ttype) : Prop :=
  exists l1 r l2, lex_rules = l1 ++ (ty, r) :: l2 /\ lang r w /\ forall p, In p l1 -> ~ lang (snd p) w.
(** [w] is the longest non-empty matched prefix of [s], typed by the first rule. *)
Definition longest_match (s : pystr) (ty : ttype) (w : pystr) : Prop :=
  w <> [] /\ (exists rest, s = w ++ rest) /\ first_rule w ty /\
  forall w' rest', s = w' ++ rest' -> length w < length w' -> ~ matched w'.
(** No non-empty prefix of [s] is matched. *)
Definition no_match (s : pystr) : Prop :=
  forall w rest, s = w ++ rest -> w <> [] -> ~ matched w.

(** A lexeme list covers a text: the texts, concatenated, are the text, and
    every lexeme starts where the previous one ended. *)
Definition lx_start (l : lexeme) : Z :=
  match l with LxTok t | LxSkip t => t_start t | LxErr s _ _ _ => s end.
Fixpoint tiles (pos : Z) (s : pystr) (ls : list lexeme) : Prop :=
  match ls with
  | [] => s = []
  | l :: ls' => lx_start l = pos /\ lx_text l <> [] /\
      exists rest, s = lx_text l ++ rest /\ tiles (pos + zlen (lx_text l)) rest ls'
  end.
