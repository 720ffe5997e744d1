(** Adaptive prediction: [ParserATNSimulator.adaptivePredict] of antlr4-python3-runtime 4.13
    (called from the rule methods as [self._interp.adaptivePredict(self._input, d, self._ctx)], e.g. FCSParser.py:301) on
    the deserialised network of FCSParser.py:
    first SLL (the callers of the current rule are unknown), then, on a conflict, LL with the full context.

    A configuration is a state, an alternative of the decision and a stack of follow states.  Simplifications:
    sets are lists; graph-structured stacks are written out as the stacks they stand for; the DFA that memoises the SLL steps is left out;
    [closure_] is split into what happens inside a rule ([inner]) and after its end (the same set of configurations);
    EOF is never treated as an epsilon transition (this network reads it once, in its last step). *)
From Verif Require Import Base LexRules Lexer Grammar Antlr GenParser Atn.
Local Open Scope Z_scope.

Record conf := mkConf { k_state : Z; k_alt : nat; k_ctx : list Z; k_outer : bool }.

Section AllStar.
  Variable A : atn.

  Fixpoint list_eqb (a b : list Z) : bool :=
    match a, b with [], [] => true | x :: a', y :: b' => (x =? y) && list_eqb a' b' | _, _ => false end.

  (** [isinstance(state, RuleStopState)], [state.ruleIndex], [Transition.matches], [isEpsilon] *)
  Definition is_stop (s : Z) : bool :=
    (0 <=? s) && match nth_error (a_states A) (Z.to_nat s) with Some q => s_type q =? 7 | None => false end.
  Definition rule_of (s : Z) : Z := match nth_error (a_states A) (Z.to_nat s) with Some q => s_rule q | None => -1 end.
  Definition in_set (l : list (Z * Z)) (x : Z) : bool := existsb (fun r => (fst r <=? x) && (x <=? snd r)) l.
  Definition matches (l : label) (x : Z) : bool :=
    match l with
    | Atom y => x =? y
    | Range a b => (a <=? x) && (x <=? b)
    | SetT s => in_set s x
    | NotSetT s => negb (in_set s x) && (if a_type A =? 0 then (0 <=? x) && (x <=? 1114111) else (1 <=? x) && (x <=? a_max A))
    | Epsilon | RuleT _ _ _ | ActionT _ _ => false
    end.
  Definition is_epsilon (l : label) : bool := match l with Epsilon | RuleT _ _ _ | ActionT _ _ => true | _ => false end.
  (** The transitions the deserialiser adds to a rule stop state: the follow states of all calls of the rule. *)
  Definition follows (e : Z) : list Z :=
    flat_map (fun ed => match fst (snd ed) with RuleT _ r _ => if r =? rule_of e then [snd (snd ed)] else [] | _ => [] end) (a_edges A).

  (** Inside the rule of [s] (and the rules called there), without reading: the states with a
      transition that reads, each with the follow states of the calls made on the way, and the stop states reached. *)
  Fixpoint inner (f : nat) (s : Z) : list (Z * list Z) * list Z :=
    match f with
    | O => ([], [])
    | S f =>
        if is_stop s then ([], [s]) else
        fold_right (fun e r =>
          let x := match e with
                   | (Epsilon, t) => inner f t
                   | (RuleT q _ _, t) =>
                       let y := inner f q in
                       let z := match snd y with [] => ([], []) | _ => inner f t end in
                       (map (fun p => (fst p, snd p ++ [t])) (fst y) ++ fst z, snd z)
                   | _ => ([(s, [])], [])
                   end in (fst x ++ fst r, snd x ++ snd r)) ([], []) (out A s)
    end.
  Definition depth : nat := 100.
  (** After the end of a rule when its callers are unknown: all states that can follow
      ([closure_] at a stop state with an empty stack, [closureBusy]). *)
  Fixpoint chase (f : nat) (todo seen : list Z) : list Z :=
    match f, todo with
    | O, _ | _, [] => seen
    | S f, t :: todo =>
        if existsb (Z.eqb t) seen then chase f todo seen
        else chase f (flat_map follows (snd (inner depth t)) ++ todo) (t :: seen)
    end.
  Definition chased (e : Z) : list Z := chase (100 * length (a_states A)) (follows e) [].
  Definition after (e : Z) : list (Z * list Z * bool) :=
    match follows e with [] => [(e, [], false)] | _ => [] end ++
    flat_map (fun t => map (fun p => (fst p, snd p, true)) (fst (inner depth t)) ++
                       flat_map (fun e => match follows e with [] => [(e, [], true)] | _ => [] end) (snd (inner depth t)))
             (chased e).
  (** [closureCheckingStopState] *)
  Fixpoint close (full : bool) (s : Z) (st : list Z) {struct st} : list (Z * list Z * bool) :=
    let x := inner depth s in
    map (fun p => (fst p, snd p ++ st, false)) (fst x) ++
    match snd x with
    | [] => []
    | es => match st with
            | f :: st' => close full f st'
            | [] => flat_map (fun e => if full then [(e, [], false)] else after e) es
            end
    end.
  Definition closure (full : bool) (k : conf) : list conf :=
    map (fun p => mkConf (fst (fst p)) (k_alt k) (snd (fst p)) (k_outer k || snd p)) (close full (k_state k) (k_ctx k)).

  (** [ATNConfigSet.add]: configurations that differ in [reachesIntoOuterContext] only are merged. *)
  Definition same_conf (a b : conf) : bool :=
    (k_state a =? k_state b) && Nat.eqb (k_alt a) (k_alt b) && list_eqb (k_ctx a) (k_ctx b).
  Fixpoint add (k : conf) (ks : list conf) : list conf :=
    match ks with
    | [] => [k]
    | k' :: r => if same_conf k k' then mkConf (k_state k') (k_alt k') (k_ctx k') (k_outer k || k_outer k') :: r else k' :: add k r
    end.
  Definition collect (ks : list conf) : list conf := fold_left (fun r k => add k r) ks [].

  (** [getUniqueAlt] *)
  Definition unique_alt (ks : list conf) : option nat :=
    match ks with [] => None | k :: r => if forallb (fun k' => Nat.eqb (k_alt k') (k_alt k)) r then Some (k_alt k) else None end.
  (** [computeStartState] *)
  Fixpoint starts (full : bool) (st : list Z) (i : nat) (l : list Z) : list conf :=
    match l with [] => [] | t :: l' => closure full (mkConf t i st false) ++ starts full st (S i) l' end.
  (** [computeReachSet] *)
  Definition move (x : Z) (k : conf) : list conf :=
    map (fun e => mkConf (snd e) (k_alt k) (k_ctx k) (k_outer k)) (filter (fun e => matches (fst e) x) (out A (k_state k))).
  Definition reach_set (full : bool) (ks : list conf) (x : Z) : list conf :=
    let eof := x =? -1 in
    let skipped := if full || eof then filter (fun k => is_stop (k_state k)) ks else [] in
    let inter := collect (flat_map (move x) (filter (fun k => negb (is_stop (k_state k))) ks)) in
    let r := match skipped, eof, unique_alt inter with
             | [], false, Some _ => inter
             | _, _, _ => collect (flat_map (closure full) inter)
             end in
    let r := if eof then filter (fun k => is_stop (k_state k)) r else r in
    if negb full || negb (existsb (fun k => is_stop (k_state k)) r) then r ++ skipped else r.

  (** [PredictionMode]: alternatives with the same state and the same stacks are in conflict.  When the
      callers are unknown a stack stands for all its extensions. *)
  Fixpoint prefix (a b : list Z) : bool :=
    match a, b with [], _ => true | x :: a', y :: b' => (x =? y) && prefix a' b' | _, [] => false end.
  Definition covers (full : bool) (a b : list Z) : bool := prefix a b && (negb full || Nat.eqb (length a) (length b)).
  Definition ctx_of (ks : list conf) (s : Z) (a : nat) : list (list Z) :=
    map k_ctx (filter (fun k => (k_state k =? s) && Nat.eqb (k_alt k) a) ks).
  Definition same_ctx (full : bool) (x y : list (list Z)) : bool :=
    forallb (fun a => existsb (fun b => covers full b a) y) x && forallb (fun a => existsb (fun b => covers full b a) x) y.
  Definition alts_at (ks : list conf) (s : Z) : list nat := nodup Nat.eq_dec (map k_alt (filter (fun k => k_state k =? s) ks)).
  Definition subset_of (full : bool) (ks : list conf) (p : Z * nat) : list nat :=
    filter (fun a => same_ctx full (ctx_of ks (fst p) a) (ctx_of ks (fst p) (snd p))) (alts_at ks (fst p)).
  (** The configurations after merging: one per state and alternative. *)
  Definition key_eq (p q : Z * nat) : {p = q} + {p <> q}.
  Proof. decide equality; [apply Nat.eq_dec|apply Z.eq_dec]. Defined.
  Definition keys (ks : list conf) : list (Z * nat) := nodup key_eq (map (fun k => (k_state k, k_alt k)) ks).
  Definition min_alt (l : list nat) : nat := match l with [] => O | a :: r => fold_right Nat.min a r end.
  (** [resolvesToJustOneViableAlt] *)
  Definition resolves (ks : list conf) : option nat :=
    match map (fun p => min_alt (subset_of true ks p)) (keys ks) with
    | [] => None
    | m :: r => if forallb (Nat.eqb m) r then Some m else None
    end.
  (** [hasSLLConflictTerminatingPrediction] *)
  Definition sll_conflict (ks : list conf) : bool :=
    forallb (fun k => is_stop (k_state k)) ks
    || existsb (fun p => Nat.ltb 1 (length (subset_of false ks p))) (keys ks)
       && negb (existsb (fun p => Nat.eqb (length (alts_at ks (fst p))) 1) (keys ks)).
  (** [getAltThatFinishedDecisionEntryRule] *)
  Definition finished_alt (ks : list conf) : option nat :=
    match filter (fun k => k_outer k || is_stop (k_state k) && match k_ctx k with [] => true | _ => false end) ks with
    | [] => None
    | l => Some (min_alt (map k_alt l))
    end.

  (** An alternative, or NoViableAltException with the position (counted from the current token) of the offending token. *)
  Inductive prediction := Alt (i : nat) | NoViable (n : nat).
  Definition no_viable (prev : list conf) (n : nat) : prediction :=
    match finished_alt prev with Some a => Alt a | None => NoViable n end.
  (** [execATNWithFullContext].  At the end of the input the loop would see EOF again. *)
  Fixpoint exec_full (prev : list conf) (w : list ttype) (n : nat) : prediction :=
    match w with
    | [] => NoViable n
    | t :: w' =>
        match reach_set true prev (tnum t) with
        | [] => no_viable prev n
        | ks => match unique_alt ks with
                | Some a => Alt a
                | None => match resolves ks with Some a => Alt a | None => exec_full ks w' (S n) end
                end
        end
    end.
  (** [execATN] *)
  Fixpoint exec (full : list conf) (w0 : list ttype) (prev : list conf) (w : list ttype) (n : nat) : prediction :=
    match w with
    | [] => NoViable n
    | t :: w' =>
        match reach_set false prev (tnum t) with
        | [] => no_viable prev n
        | ks => match unique_alt ks with
                | Some a => Alt a
                | None => if sll_conflict ks then exec_full full w0 0 else exec full w0 ks w' (S n)
                end
        end
    end.
  (** [adaptivePredict]: decision number, the states in which the current rule and its callers were
      invoked (innermost first), the remaining token types. *)
  Definition adaptive_predict (d : nat) (c : list Z) (w : list ttype) : prediction :=
    let l := alternatives A d in
    exec (collect (starts true (map (follow_of A) c) 1 l)) w (collect (starts false [] 1 l)) w 0.
  Definition adaptive (d : nat) (c : list Z) (w : list ttype) : option nat :=
    match adaptive_predict d c w with Alt i => Some i | NoViable _ => None end.

  (** [DefaultErrorStrategy.sync], as far as it can tell that something is wrong: [ATN.nextTokens] of the state contains neither the
      next token nor EPSILON, and the state is a block start, a loop entry or a loop back (state types 3, 4, 5, 10, 9, 11). *)
  Definition sync_passes (n : Z) (t : ttype) : bool :=
    let x := inner depth n in
    existsb (fun p => existsb (fun e => matches (fst e) (tnum t)) (out A (fst p))) (fst x)
    || match snd x with [] => false | _ => true end
    || negb (existsb (Z.eqb (match nth_error (a_states A) (Z.to_nat n) with Some q => s_type q | None => 0 end)) [3; 4; 5; 9; 10; 11]).
End AllStar.
