(** Regular expressions over code points with Brzozowski derivatives: the
    notation in which [LexRules.v] transcribes FCSLexer.g4.  A derivative
    plays the role of a configuration set of ANTLR's lexer ATN
    (antlr4 LexerATNSimulator): [void] = no configuration left,
    [nullable] = some configuration is in a rule stop state. *)
From Verif Require Import Base.

(** A character set: ranges, possibly negated ([~[...]]).  ANTLR matches a
    negated set only inside 0..10FFFF (Lexer.MIN/MAX_CHAR_VALUE). *)
Record cls := mkCls { c_neg : bool; c_ranges : list (N * N) }.

Definition in_ranges (l : list (N * N)) (x : N) : bool :=
  existsb (fun r => ((fst r <=? x) && (x <=? snd r))%N) l.
Definition in_cls (c : cls) (x : N) : bool :=
  if c_neg c then negb (in_ranges (c_ranges c) x) && (x <=? 1114111)%N
  else in_ranges (c_ranges c) x.

Inductive regex :=
| Emp                      (* matches nothing *)
| Eps                      (* matches the empty string *)
| Chr (c : cls)
| Cat (r s : regex)
| Bar (r s : regex)
| Rep (r : regex).         (* r* *)

(** Declarative language of a regular expression. *)
Inductive lang : regex -> pystr -> Prop :=
| l_eps : lang Eps []
| l_chr c x : in_cls c x = true -> lang (Chr c) [x]
| l_cat r s x y : lang r x -> lang s y -> lang (Cat r s) (x ++ y)
| l_barl r s x : lang r x -> lang (Bar r s) x
| l_barr r s x : lang s x -> lang (Bar r s) x
| l_rep0 r : lang (Rep r) []
| l_rep1 r x y : lang r x -> lang (Rep r) y -> lang (Rep r) (x ++ y).

Fixpoint nullable (r : regex) : bool :=
  match r with
  | Emp | Chr _ => false
  | Eps | Rep _ => true
  | Cat r s => nullable r && nullable s
  | Bar r s => nullable r || nullable s
  end.

(** No string at all is matched (all character sets used are inhabited). *)
Fixpoint void (r : regex) : bool :=
  match r with
  | Emp => true
  | Eps | Chr _ | Rep _ => false
  | Cat r s => void r || void s
  | Bar r s => void r && void s
  end.

(** Simplifying constructors: keep derivatives small. *)
Definition cat (r s : regex) : regex :=
  match r with
  | Emp => Emp
  | Eps => s
  | _ => match s with Emp => Emp | _ => Cat r s end
  end.
Definition bar (r s : regex) : regex :=
  match r with
  | Emp => s
  | _ => match s with Emp => r | _ => Bar r s end
  end.

Fixpoint deriv (x : N) (r : regex) : regex :=
  match r with
  | Emp | Eps => Emp
  | Chr c => if in_cls c x then Eps else Emp
  | Cat r s => if nullable r then bar (cat (deriv x r) s) (deriv x s) else cat (deriv x r) s
  | Bar r s => bar (deriv x r) (deriv x s)
  | Rep r => cat (deriv x r) (Rep r)
  end.

(** Notation helpers for the transcription of the grammar. *)
Definition ch (x : N) : regex := Chr (mkCls false [(x, x)]).
Definition set (l : list (N * N)) : regex := Chr (mkCls false l).
Definition nset (l : list (N * N)) : regex := Chr (mkCls true l).
Fixpoint word (s : pystr) : regex :=
  match s with [] => Eps | [x] => ch x | x :: s' => Cat (ch x) (word s') end.
Fixpoint bars (l : list regex) : regex :=
  match l with [] => Emp | [r] => r | r :: l' => Bar r (bars l') end.
Fixpoint cats (l : list regex) : regex :=
  match l with [] => Eps | [r] => r | r :: l' => Cat r (cats l') end.
Definition opt (r : regex) : regex := Bar r Eps.
Definition plus (r : regex) : regex := Cat r (Rep r).
