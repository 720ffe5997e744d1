(** Specification of the structure of a query outside brackets. *)
From Coq Require Import String.
From Verif Require Import Base LexRules Lexer Ast Builder LitSpec ValueSpec SpellSpec LevelSpec.
Local Open Scope Z_scope.

Section Canonical.
  Variables (E : penv) (C : pcfg).
  (** An operand of [|]: a single segment stands for itself, everything else (several items, or a
      single parenthesised group) is a sequence of its items in order. *)
  Definition operand_of (ts : list token) (ns : list qnode) : qnode :=
    match ns with
    | [QN (PSegment mn mx) l ch] => QN (PSegment mn mx) l ch
    | _ => QN PSequence (span ts) ns
    end.
  Definition canon_operand (ts : list token) (n : qnode) : Prop :=
    exists ns, sp_seq E C ts ns /\ n = operand_of ts ns.
  (** Between parentheses: without [|] a sequence of the items, even of a single one; with [|]
      the disjunction of its operands, in order. *)
  Definition canon_content (ts : list token) (n : qnode) : Prop :=
    match parts OR ts with
    | [_] => exists ns, sp_seq E C ts ns /\ n = QN PSequence (span ts) ns
    | ops => exists ns, Forall2 canon_operand ops ns /\ n = QN PDisjunction (span ts) ns
    end.
  (** A whole query (without its within part): a single item stands for itself. *)
  Definition canon_main (ts : list token) (n : qnode) : Prop :=
    match parts OR ts with
    | [_] => exists ns, sp_seq E C ts ns /\ n = match ns with [x] => x | _ => QN PSequence (span ts) ns end
    | ops => exists ns, Forall2 canon_operand ops ns /\ n = QN PDisjunction (span ts) ns
    end.
End Canonical.
