(** Specification: writing a tree as a query. *)
From Coq Require Import String.
From Verif Require Import Base LexRules Lexer Ast Builder LitSpec ValueSpec SpellSpec TreeSpec ReadSpec ReadStrat.
Local Open Scope Z_scope.

(** Layer names: a letter, then letters, digits and hyphens, not ending in a hyphen. *)
Definition is_letter (c : N) : Prop := ((97 <= c <= 122) \/ (65 <= c <= 90))%N.
Definition is_alnum (c : N) : Prop := is_letter c \/ (48 <= c <= 57)%N.
Definition is_name (w : pystr) : Prop :=
  exists c r, w = c :: r /\ is_letter c /\
    (r = [] \/ exists m d, r = m ++ [d] /\ is_alnum d /\ Forall (fun x => is_alnum x \/ x = 45%N) m).
(** A segment holding just an expression with the default layer and operator. *)
Definition bare (C : pcfg) (c : qnode) : bool :=
  match c with
  | QN (PExpr None i op _ _) _ _ =>
      str_eqb i (default_identifier C) && match op, default_operator C with EQUALS, EQUALS | NOT_EQUALS, NOT_EQUALS => true | _, _ => false end
  | _ => false
  end.
Definition named (c : qnode) : Prop :=
  match c with QN (PExpr q i _ _ _) _ _ => is_name i /\ (forall w, q = Some w -> is_name w) | _ => True end.

(** Which contents nodes can have, beside the documented shape [qstrat]. *)
Definition regex_ok (E : penv) (C : pcfg) (v : pystr) : Prop := is_pystr v /\ normalised E C v = v.
Definition bounds_ok (E : penv) (mn mx : Z) : Prop :=
  (mn = 1 /\ mx = 1) \/ (mn = 0 /\ mx = 1) \/ ((mn = 0 \/ mn = 1) /\ mx = OCCURS_UNBOUNDED) \/
  0 <= mn /\ int_ok E (dec mn) /\ (mx = OCCURS_UNBOUNDED \/ mn <= mx /\ int_ok E (dec mx)).
Definition flags_writable (fl : option flags) : Prop := forall S, fl = Some S -> S <> no_flags /\ consistent S.
Definition node_ok (E : penv) (C : pcfg) (m : qnode) : Prop :=
  match m with
  | QN p _ ch =>
    match p with
    | PExpr _ _ _ v fl => regex_ok E C v /\ flags_writable fl
    | PExprGroup | PNot => List.length ch = 1%nat
    | PAnd | POr | PDisjunction => (2 <= List.length ch)%nat
    | PSequence => (1 <= List.length ch)%nat
    | PSegment mn mx | PQGroup mn mx => List.length ch = 1%nat /\ bounds_ok E mn mx
    | PWildcard | PWithWithin | PSimpleWithin _ => True
    end /\
    (forall c, In c ch -> named c \/ class_of p = CQuerySegment /\ bare C c = true)
  end.
Definition writable (E : penv) (C : pcfg) (n : qnode) : Prop :=
  qstrat n = true /\ forall m, subnode m n -> node_ok E C m.

(** Writing: the words of the query, joined by spaces. *)
Definition scope_text (s : scope) : pystr :=
  match s with SENTENCE => u "sentence" | UTTERANCE => u "utterance" | PARAGRAPH => u "paragraph" | TURN => u "turn" | TEXT => u "text" | SESSION => u "session" end.
Definition flag_text (S : flags) : pystr :=
  (if f_ci S then u "i" else []) ++ (if f_cs S then u "I" else []) ++ (if f_lit S then u "l" else []) ++ (if f_dia S then u "d" else []).
Definition op_text (o : operator) : pystr := match o with EQUALS => u "=" | NOT_EQUALS => u "!=" end.
Definition regex_words (v : pystr) (fl : option flags) : list pystr :=
  quote_text 34 v :: match fl with None => [] | Some s => [u "/"; flag_text s] end.
Definition quantifier_words (mn mx : Z) : list pystr :=
  if (mn =? 1) && (mx =? 1) then []
  else if (mn =? 0) && (mx =? OCCURS_UNBOUNDED) then [u "*"]
  else if (mn =? 1) && (mx =? OCCURS_UNBOUNDED) then [u "+"]
  else if (mn =? 0) && (mx =? 1) then [u "?"]
  else if mx =? OCCURS_UNBOUNDED then [u "{"; dec mn; u ","; u "}"]
  else [u "{"; dec mn; u ","; dec mx; u "}"].
Fixpoint between (sep : pystr) (l : list (list pystr)) : list pystr :=
  match l with [] => [] | [a] => a | a :: l' => a ++ sep :: between sep l' end.
Fixpoint words (C : pcfg) (n : qnode) : list pystr :=
  match n with
  | QN p _ ch =>
    let ws := map (words C) ch in
    match p with
    | PExpr q i op v fl => match q with Some w => [w; u ":"] | None => [] end ++ [i; op_text op] ++ regex_words v fl
    | PWildcard => []
    | PExprGroup => u "(" :: concat ws ++ [u ")"]
    | PNot => u "!" :: concat ws
    | PAnd => between (u "&") ws
    | POr | PDisjunction => between (u "|") ws
    | PSequence => concat ws
    | PWithWithin => between (u "within") ws
    | PSegment mn mx =>
        match ch with
        | [QN (PExpr None i op v fl) l cs] => if bare C (QN (PExpr None i op v fl) l cs) then regex_words v fl else u "[" :: concat ws ++ [u "]"]
        | _ => u "[" :: concat ws ++ [u "]"]
        end ++ quantifier_words mn mx
    | PQGroup mn mx => u "(" :: concat ws ++ u ")" :: quantifier_words mn mx
    | PSimpleWithin s => [scope_text s]
    end
  end.
Definition write (C : pcfg) (n : qnode) : pystr := join (u " ") (words C n).
