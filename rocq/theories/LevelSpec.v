(** Specification of operator precedence inside brackets. *)
From Coq Require Import String.
From Verif Require Import Base LexRules Lexer Ast Builder LitSpec ValueSpec SpellSpec.
Local Open Scope Z_scope.

(** Bracket depth after a token. *)
Definition depth_after (d : nat) (t : token) : nat :=
  match t_type t with
  | L_PAREN | L_SQUARE_BRACKET => S d
  | R_PAREN | R_SQUARE_BRACKET => pred d
  | _ => d
  end.
(** Split at the separators that stand outside all brackets. *)
Fixpoint parts_at (sep : ttype) (d : nat) (ts : list token) : list (list token) :=
  match ts with
  | [] => [[]]
  | t :: r =>
      if ((d =? 0)%nat && ttype_eqb sep (t_type t))%bool then [] :: parts_at sep 0 r
      else match parts_at sep (depth_after d t) r with
           | p :: ps => (t :: p) :: ps
           | [] => [[t]]
           end
  end.
Definition parts (sep : ttype) (ts : list token) : list (list token) := parts_at sep 0 ts.

(** The number of [!] in front of a factor. *)
Fixpoint leading_nots (ts : list token) : nat :=
  match ts with
  | t :: r => if ttype_eqb NOT (t_type t) then S (leading_nots r) else 0%nat
  | [] => 0%nat
  end.
(** A level [T1 | ... | Tk], each [Ti] a list of factors joined by [&]; of each factor
    the number of negations in front. *)
Definition shape (ts : list token) : list (list nat) :=
  map (fun T => map leading_nots (parts AND T)) (parts OR ts).

(** The textbook tree of a level: [!] binds strongest, then [&], then [|]; operators are
    n-ary; atoms are comparisons and parenthesised groups. *)
Section Textbook.
  Variables (E : penv) (C : pcfg).
  Inductive tb_factor : list token -> qnode -> Prop :=
  | tb_atom ts n : sp_expr E C ts n -> (q_class n = CExpression \/ q_class n = CExpressionGroup) -> tb_factor ts n
  | tb_not k ts n : is_tok NOT k -> tb_factor ts n -> tb_factor (k :: ts) (QN PNot (span (k :: ts)) [n]).
  Definition tb_term (ts : list token) (n : qnode) : Prop :=
    match parts AND ts with
    | [_] => tb_factor ts n
    | fs => exists ns, Forall2 tb_factor fs ns /\ n = QN PAnd (span ts) ns
    end.
  Definition textbook (ts : list token) (n : qnode) : Prop :=
    match parts OR ts with
    | [_] => tb_term ts n
    | tms => exists ns, Forall2 tb_term tms ns /\ n = QN POr (span ts) ns
    end.
End Textbook.

(** Term number [i] (from 0) is not parsed as the textbook says: it is not the last one and
    (a) a factor other than its first is negated, and [i] is not 0 or there are at least three terms; or
    (b) it is a single negated factor, and a later term [j] has at least two factors, and [i] is not 0 or
        [j] is not the last. *)
Definition deviates (jss : list (list nat)) (i : nat) : Prop :=
  (S i < List.length jss)%nat /\ exists js, nth_error jss i = Some js /\
  ((exists p f, nth_error js (S p) = Some (S f)) /\ ((1 <= i)%nat \/ (3 <= List.length jss)%nat) \/
   (exists f, js = [S f]) /\ exists j js', (i < j)%nat /\ nth_error jss j = Some js' /\ (2 <= List.length js')%nat /\
      ((1 <= i)%nat \/ (S j < List.length jss)%nat)).
