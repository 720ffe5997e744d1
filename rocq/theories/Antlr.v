(** ANTLR's generated parser (FCSParser.py) on token sequences.

    Each decision point of the generated code ([adaptivePredict] or an inlined
    single-token test) selects the least alternative that leads to a complete
    parse of the remaining input given the whole invocation stack (the
    specification of ALL-star prediction with full context); [viableb] decides
    that, [parse_e] is the recursive descent that consults it. *)
From Verif Require Import Base LexRules Lexer Grammar.

(** Parse trees (antlr4 ParserRuleContext / TerminalNode). *)
Inductive ptree :=
| Leaf (t : token)
| Node (r : rule) (children : list ptree).

Definition tt_in (t : ttype) (l : list ttype) : bool := existsb (ttype_eqb t) l.

(** Can the stack [K] of pending right-hand sides derive exactly [ts]?
    (ParserATNSimulator.adaptivePredict's simulation.) *)
Fixpoint viableb (fuel : nat) (K : list ebnf) (ts : list ttype) : bool :=
  match fuel with
  | O => false
  | S f =>
      match K with
      | [] => match ts with [] => true | _ :: _ => false end
      | Tk l :: K' => match ts with t :: ts' => if tt_in t l then viableb f K' ts' else false | [] => false end
      | NT r :: K' => viableb f (body r :: K') ts
      | Sq a b :: K' => viableb f (a :: b :: K') ts
      | Al a b :: K' => if viableb f (a :: K') ts then true else viableb f (b :: K') ts
      | Op e :: K' => if viableb f (e :: K') ts then true else viableb f K' ts
      | Pl e :: K' => viableb f (e :: St e :: K') ts
      | St e :: K' => if viableb f (e :: St e :: K') ts then true else viableb f K' ts
      end
  end.

(** Recursive descent with prediction (the rule methods of FCSParser.py:223-2022).
    [K]: what the callers still have to match after [e]. *)
Fixpoint parse_e (fuel : nat) (e : ebnf) (K : list ebnf) (ts : list token)
  : option (list ptree * list token) :=
  match fuel with
  | O => None
  | S f =>
      let viable := fun K' => viableb fuel K' (map t_type ts) in
      match e with
      | Tk l => match ts with
                | t :: ts' => if tt_in (t_type t) l then Some ([Leaf t], ts') else None
                | [] => None
                end
      | NT r => match parse_e f (body r) K ts with
                | Some (ch, rest) => Some ([Node r ch], rest)
                | None => None
                end
      | Sq a b => match parse_e f a (b :: K) ts with
                  | Some (ch1, rest1) =>
                      match parse_e f b K rest1 with
                      | Some (ch2, rest2) => Some (ch1 ++ ch2, rest2)
                      | None => None
                      end
                  | None => None
                  end
      | Al a b => if viable (a :: K) then parse_e f a K ts else parse_e f b K ts
      | Op e' => if viable (e' :: K) then parse_e f e' K ts else Some ([], ts)
      | Pl e' => parse_e f (Sq e' (St e')) K ts
      | St e' => if viable (e' :: St e' :: K) then parse_e f (Sq e' (St e')) K ts
                 else Some ([], ts)
      end
  end.

(** Enough fuel for a token sequence of length [n] (proved sufficient). *)
Definition antlr_fuel (n : nat) : nat := 64 * S n.

(** Is the token sequence (including EOF) in the language of rule [query]? *)
Definition in_grammar (ts : list token) : bool :=
  viableb (antlr_fuel (length ts)) [NT query] (map t_type ts).

(** [parser.query()] on a token sequence in the language, parser.py:1729. *)
Definition antlr_query (ts : list token) : option ptree :=
  if in_grammar ts then
    match parse_e (antlr_fuel (length ts)) (NT query) [] ts with
    | Some ([t], []) => Some t
    | _ => None
    end
  else None.

(** ParserRuleContext API used by the tree builder. *)

(** Leaves of a tree in order. *)
Fixpoint leaves (t : ptree) : list token :=
  match t with
  | Leaf k => [k]
  | Node _ ch => flat_map leaves ch
  end.

(** [getText()]: concatenation of the token texts. *)
Definition get_text (t : ptree) : pystr := flat_map t_text (leaves t).

(** [ctx.start]: LT(1) at rule entry; [ctx.stop]: LT(-1) at rule exit.  EOF is
    never consumed (Parser.consume), so it is never a stop token.  Every rule
    of this grammar consumes at least one token, hence: first leaf, last
    non-EOF leaf. *)
Definition ctx_start (t : ptree) : option token := hd_error (leaves t).
Definition ctx_stop (t : ptree) : option token :=
  hd_error (rev (filter (fun k => negb (ttype_eqb (t_type k) EOF)) (leaves t))).

(** [getTypedRuleContext(XContext, 0)]. *)
Definition find_rule (r : rule) (ch : list ptree) : option ptree :=
  find (fun t => match t with Node r' _ => rule_eqb r' r | Leaf _ => false end) ch.
(** [getToken(T, 0)]. *)
Definition find_token (ty : ttype) (ch : list ptree) : option ptree :=
  find (fun t => match t with Leaf k => ttype_eqb (t_type k) ty | Node _ _ => false end) ch.
(** [getChild(i)]: Python list indexing, negative indices count from the end. *)
Definition get_child_ctx (i : Z) (ch : list ptree) : option ptree :=
  if (i <? 0)%Z then nth_error ch (Z.to_nat (Z.of_nat (length ch) + i))
  else nth_error ch (Z.to_nat i).
