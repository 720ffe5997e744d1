(** The tables that the generated lexer and parser hand to the ANTLR runtime: decoding of the
    serialised form (antlr4 runtime 4.13, ATNDeserializer, version 4) and what the decoded
    networks accept. *)
From Verif Require Import Base LexRules Lexer Grammar Antlr GenParser AtnData.
Local Open Scope Z_scope.

(** ** Decoding *)
(** Transitions; a rule transition keeps the start state of the rule, its number and the
    precedence, the edge itself leads to the follow state. *)
Inductive label :=
| Epsilon | Range (a b : Z) | RuleT (start r prec : Z) | Atom (x : Z) | ActionT (r i : Z)
| SetT (l : list (Z * Z)) | NotSetT (l : list (Z * Z)).
Record state := mkState { s_type : Z; s_rule : Z; s_extra : Z }.
Record atn := mkAtn {
  a_type : Z;                              (* 0 lexer, 1 parser *)
  a_max : Z;                               (* largest token type *)
  a_states : list state;                   (* numbered from 0 *)
  a_nongreedy : list Z; a_precedence : list Z;
  a_rules : list (Z * Z);                  (* start state, token type (lexer) *)
  a_modes : list Z;                        (* start state of each mode (lexer) *)
  a_edges : list (Z * (label * Z));        (* from, (transition, to), in order *)
  a_decisions : list Z;                    (* decision number -> state *)
  a_actions : list (Z * Z * Z) }.          (* lexer actions: type and two arguments *)

Definition reader (T : Type) := list Z -> option (T * list Z).
Definition rd : reader Z := fun w => match w with x :: w' => Some (x, w') | [] => None end.
Definition ret {T} (x : T) : reader T := fun w => Some (x, w).
Definition bind {S T} (a : reader S) (f : S -> reader T) : reader T :=
  fun w => match a w with Some (x, w') => f x w' | None => None end.
Notation "x <- a ;; b" := (bind a (fun x => b)) (at level 61, a at next level, right associativity).
Definition fail {T} : reader T := fun _ => None.
Fixpoint times {T} (n : nat) (a : reader T) : reader (list T) :=
  match n with O => ret [] | S n' => bind a (fun x => bind (times n' a) (fun l => ret (x :: l))) end.
(** A count and that many items. *)
Definition many {T} (a : reader T) : reader (list T) := bind rd (fun n => if n <? 0 then fail else times (Z.to_nat n) a).

(** readStates: LOOP_END (12) and the block starts (3, 4, 5) carry a second state. *)
Definition rd_state : reader state :=
  bind rd (fun t => if t =? 0 then ret (mkState 0 0 0) else
  bind rd (fun r => if existsb (Z.eqb t) [3; 4; 5; 12] then bind rd (fun x => ret (mkState t r x)) else
    if (1 <=? t) && (t <=? 12) then ret (mkState t r 0) else fail)).
(** readRules: a lexer rule has a token type (0: fragment). *)
Definition rd_rule (lexer : bool) : reader (Z * Z) :=
  bind rd (fun s => if lexer then bind rd (fun t => ret (s, t)) else ret (s, 0)).
(** readSets: intervals, and whether EOF (-1) belongs to it. *)
Definition rd_set : reader (list (Z * Z)) :=
  bind rd (fun n => bind rd (fun e => bind (times (Z.to_nat n) (bind rd (fun a => bind rd (fun b => ret (a, b))))) (fun l =>
    ret (if e =? 0 then l else (-1, -1) :: l)))).
(** edgeFactory *)
Definition mk_label (sets : list (list (Z * Z))) (ty a1 a2 a3 : Z) : option label :=
  if ty =? 1 then Some Epsilon
  else if ty =? 2 then Some (Range (if a3 =? 0 then a1 else -1) a2)
  else if ty =? 3 then Some (RuleT a1 a2 a3)
  else if ty =? 5 then Some (Atom (if a3 =? 0 then a1 else -1))
  else if ty =? 6 then Some (ActionT a1 a2)
  else if ty =? 7 then option_map SetT (nth_error sets (Z.to_nat a1))
  else if ty =? 8 then option_map NotSetT (nth_error sets (Z.to_nat a1))
  else None.                               (* predicates, wildcard: do not occur *)
Definition rd_edge (sets : list (list (Z * Z))) : reader (Z * (label * Z)) :=
  bind rd (fun src => bind rd (fun trg => bind rd (fun ty => bind rd (fun a1 => bind rd (fun a2 => bind rd (fun a3 =>
    match mk_label sets ty a1 a2 a3 with Some l => ret (src, (l, trg)) | None => fail end)))))).
(** deserialize *)
Definition rd_atn : reader atn :=
  bind rd (fun version => if negb (version =? 4) then fail else
  bind rd (fun ty => bind rd (fun mx => bind (many rd_state) (fun states => bind (many rd) (fun ng => bind (many rd) (fun pr =>
  bind (many (rd_rule (ty =? 0))) (fun rules => bind (many rd) (fun modes => bind (many rd_set) (fun sets =>
  bind (many (rd_edge sets)) (fun edges => bind (many rd) (fun decs =>
  bind (if ty =? 0 then many (bind rd (fun a => bind rd (fun b => bind rd (fun c => ret (a, b, c))))) else ret []) (fun acts =>
  ret (mkAtn ty mx states ng pr rules modes edges decs acts))))))))))))).
(** All words have to be used. *)
Definition decode (w : list Z) : option atn :=
  match rd_atn w with Some (a, []) => Some a | _ => None end.
Definition no_atn : atn := mkAtn 0 0 [] [] [] [] [] [] [] [].
(** FCSLexer.py:107, FCSParser.py:97: [atn = ATNDeserializer().deserialize(serializedATN())] *)
Definition lexer_atn : atn := match decode lexer_words with Some a => a | None => no_atn end.
Definition parser_atn : atn := match decode parser_words with Some a => a | None => no_atn end.

(** ** What a network accepts *)
Definition out (A : atn) (s : Z) : list (label * Z) := map snd (filter (fun e => fst e =? s) (a_edges A)).
Definition stop_state (A : atn) (s : Z) : Prop :=
  0 <= s /\ exists q, nth_error (a_states A) (Z.to_nat s) = Some q /\ s_type q = 7.
(** Transition.matches: characters for a lexer, token types for a parser (EOF = -1).  A
    negated set is meant within the characters 0..10FFFF (Lexer.MIN/MAX_CHAR_VALUE), or the
    token types 1..max. *)
Definition within_set (l : list (Z * Z)) (x : Z) : Prop := exists a b, In (a, b) l /\ a <= x <= b.
Definition sym (A : atn) (l : label) (x : Z) : Prop :=
  match l with
  | Atom y => x = y
  | Range a b => a <= x <= b
  | SetT s => within_set s x
  | NotSetT s => ~ within_set s x /\ (if a_type A =? 0 then 0 <= x <= 1114111 else 1 <= x <= a_max A)
  | Epsilon | RuleT _ _ _ | ActionT _ _ => False
  end.
(** Transitions that leave no trace. *)
Definition silent (l : label) : Prop := match l with Epsilon => True | _ => False end.

(** Paths: [path A see wrap s x t] leads from state [s] to state [t] and yields [x]; a rule
    transition runs through the rule to a stop state, [wrap] makes of its yield an item of the
    caller. *)
Section Path.
  Context {I : Type} (A : atn) (see : label -> I -> Prop) (wrap : Z -> list I -> list I).
  Inductive path : Z -> list I -> Z -> Prop :=
  | p_here s : path s [] s
  | p_silent s l t x v : In (l, t) (out A s) -> silent l -> path t x v -> path s x v
  | p_sym s l t i x v : In (l, t) (out A s) -> see l i -> path t x v -> path s (i :: x) v
  | p_call s q r pr t y e x v : In (RuleT q r pr, t) (out A s) -> path q y e -> stop_state A e -> path t x v ->
      path s (wrap r y ++ x) v.
End Path.

(** Parser: the items are the trees of the parse tree. *)
Definition rule_names : list rule :=
  [query; main_query; query_disjunction; query_sequence; query_group; query_simple; quantifier;
   query_implicit; query_segment; within_part; within_part_simple; expression; expression_or;
   expression_and; expression_group; expression_not; expression_basic; attribute; qualifier;
   identifier; regexp; regexp_pattern; regexp_flag].      (* FCSParser.py:115-144 *)
Definition rule_num (r : rule) : Z :=
  match r with
  | query => 0 | main_query => 1 | query_disjunction => 2 | query_sequence => 3 | query_group => 4 | query_simple => 5
  | quantifier => 6 | query_implicit => 7 | query_segment => 8 | within_part => 9 | within_part_simple => 10
  | expression => 11 | expression_or => 12 | expression_and => 13 | expression_group => 14 | expression_not => 15
  | expression_basic => 16 | attribute => 17 | qualifier => 18 | identifier => 19 | regexp => 20
  | regexp_pattern => 21 | regexp_flag => 22
  end.
Definition rule_named (n : Z) : option rule := if n <? 0 then None else nth_error rule_names (Z.to_nat n).
Definition see_tree (A : atn) (l : label) (t : ptree) : Prop :=
  match t with Leaf k => sym A l (tnum (t_type k)) | Node _ _ => False end.
Definition wrap_tree (r : Z) (y : list ptree) : list ptree :=
  match rule_named r with Some r' => [Node r' y] | None => [] end.
Definition start_of (A : atn) (r : Z) : Z := fst (nth (Z.to_nat r) (a_rules A) (-1, 0)).
(** [ch] are the children of a tree of rule [r]. *)
Definition net_tree (A : atn) (r : rule) (ch : list ptree) : Prop :=
  exists e, path A (see_tree A) wrap_tree (start_of A (rule_num r)) ch e /\ stop_state A e.

(** Lexer: the items are the characters and the numbers of the lexer actions passed; calls of
    fragments leave no trace. *)
Inductive lexitem := Char (c : N) | Act (i : Z).
Definition see_char (A : atn) (l : label) (x : lexitem) : Prop :=
  match x with
  | Char c => sym A l (Z.of_N c)
  | Act i => match l with ActionT _ j => i = j | _ => False end
  end.
Definition chars_of (x : list lexitem) : pystr := flat_map (fun i => match i with Char c => [c] | Act _ => [] end) x.
Definition acts_of (x : list lexitem) : list Z := flat_map (fun i => match i with Char _ => [] | Act n => [n] end) x.
(** From [start] the text [w] leads to a stop state, with the actions [acts]. *)
Definition net_text (A : atn) (start : Z) (w : pystr) (acts : list (Z * Z * Z)) : Prop :=
  exists x e, path A (see_char A) (fun _ y => y) start x e /\ stop_state A e /\ chars_of x = w /\
    acts = map (fun i => nth (Z.to_nat i) (a_actions A) (-1, 0, 0)) (acts_of x).
(** The alternatives of the start state of mode 0, in order: token type and start state
    (Lexer: the first of them that matches the longest text wins). *)
Definition token_alts (A : atn) : list (Z * Z) :=
  map (fun e => (match nth_error (a_states A) (Z.to_nat (snd e)) with Some q => snd (nth (Z.to_nat (s_rule q)) (a_rules A) (0, 0)) | None => 0 end, snd e))
      (out A (nth 0 (a_modes A) (-1))).

(** ** Prediction *)
(** With the follow states [st] of the pending calls (innermost first) the input [w] can be
    read to its end. *)
Inductive reach (A : atn) : Z -> list Z -> list ttype -> Prop :=
| r_done s : stop_state A s -> reach A s [] []
| r_ret s f st w : stop_state A s -> reach A f st w -> reach A s (f :: st) w
| r_silent s l t st w : In (l, t) (out A s) -> silent l -> reach A t st w -> reach A s st w
| r_sym s l t st x w : In (l, t) (out A s) -> sym A l (tnum x) -> reach A t st w -> reach A s st (x :: w)
| r_call s q r pr t st w : In (RuleT q r pr, t) (out A s) -> reach A q (t :: st) w -> reach A s st w.
(** PredictionContextFromRuleContext: the follow state of the transition at the state in which
    a rule was invoked. *)
Definition follow_of (A : atn) (s : Z) : Z := match out A s with (_, t) :: _ => t | [] => -1 end.
Definition alternatives (A : atn) (d : nat) : list Z :=
  match nth_error (a_decisions A) d with Some s => map snd (out A s) | None => [] end.
(** Alternative [i] (from 1) of decision [d], invoked through the states [c] (innermost first),
    is the least one from which the rest of the input can be parsed to its end. *)
Definition least_alt (A : atn) (d : nat) (c : list Z) (w : list ttype) (i : nat) : Prop :=
  (exists t, nth_error (alternatives A d) (i - 1) = Some t /\ (1 <= i)%nat /\ reach A t (map (follow_of A) c) w) /\
  forall j t, (1 <= j < i)%nat -> nth_error (alternatives A d) (j - 1) = Some t -> ~ reach A t (map (follow_of A) c) w.
(** [adaptivePredict] (ParserATNSimulator, full context): it returns an alternative of the
    decision, namely the least one that leads to the end of the input, if there is one. *)
Definition predicts (A : atn) (p : nat -> list Z -> list ttype -> option nat) : Prop :=
  (forall d c w i, p d c w = Some i -> (1 <= i <= length (alternatives A d))%nat) /\
  (forall d c w i, least_alt A d c w i -> p d c w = Some i).

(** ** Synchronisation *)
(** The end of the rule can be reached without reading anything. *)
Inductive ends (A : atn) : Z -> Prop :=
| e_stop s : stop_state A s -> ends A s
| e_silent s l t : In (l, t) (out A s) -> silent l -> ends A t -> ends A s
| e_call s q r pr t : In (RuleT q r pr, t) (out A s) -> ends A q -> ends A t -> ends A s.
(** [x] can be the next symbol read inside the rule (ATN.nextTokens, LL1Analyzer.LOOK). *)
Inductive next (A : atn) : Z -> Z -> Prop :=
| n_sym s l t x : In (l, t) (out A s) -> sym A l x -> next A s x
| n_silent s l t x : In (l, t) (out A s) -> silent l -> next A t x -> next A s x
| n_in s q r pr t x : In (RuleT q r pr, t) (out A s) -> next A q x -> next A s x
| n_over s q r pr t x : In (RuleT q r pr, t) (out A s) -> ends A q -> next A t x -> next A s x.
(** DefaultErrorStrategy.sync does nothing if the next token can be read in this state or the
    end of the rule can be reached. *)
Definition syncs (A : atn) (sync : Z -> ttype -> bool) : Prop :=
  forall n t, next A n (tnum t) \/ ends A n -> sync n t = true.
