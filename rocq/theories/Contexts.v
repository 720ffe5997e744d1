(** The parse tree API of the generated modules: accessors of the context classes, [ParseTreeWalker] with
    listeners (FCSParserListener.py) and visitors (FCSParserVisitor.py).  The tables are in ContextData.v. *)
From Coq Require Import String.
From Verif Require Import Base LexRules Lexer Grammar Antlr ContextData.

(** [isinstance(child, XContext)] / [isinstance(child, TerminalNode) and child.symbol.type == T]. *)
Definition of_kind (k : kind) (t : ptree) : bool :=
  match k, t with
  | KRule r, Node r' _ => rule_eqb r' r
  | KTok ty, Leaf tk => ttype_eqb (t_type tk) ty
  | _, _ => false
  end.
(** [getTypedRuleContexts(XContext)] / [getTokens(T)] (antlr4 ParserRuleContext). *)
Definition get_all (k : kind) (ch : list ptree) : list ptree := filter (of_kind k) ch.
(** [getTypedRuleContext(XContext, i)] / [getToken(T, i)] for [i >= 0]: the counting loop. *)
Fixpoint get_at (k : kind) (i : nat) (ch : list ptree) : option ptree :=
  match ch with
  | [] => None
  | c :: ch' => if of_kind k c then match i with O => Some c | S i' => get_at k i' ch' end else get_at k i ch'
  end.
(** A call of an accessor, e.g. FCSParser.py:189-190 (no index) and 345-349 ([i : int = None]).
    Simplification: an index given to an accessor that takes none (a TypeError) is ignored. *)
Inductive acc_value := VOne (o : option ptree) | VList (l : list ptree).
Definition call_accessor (a : accessor) (i : option nat) (ch : list ptree) : acc_value :=
  if a_indexed a then match i with None => VList (get_all (a_kind a) ch) | Some i => VOne (get_at (a_kind a) i ch) end
  else VOne (get_at (a_kind a) 0 ch).

(** What a listener or a visitor gets to see. *)
Inductive event := Call (m : pystr) (ctx : ptree) | EnterEvery (ctx : ptree) | ExitEvery (ctx : ptree) | Terminal (t : token).
(** [ParseTreeWalker.DEFAULT.walk(listener, tree)] with [enterRule]/[exitRule] of the context classes
    (FCSParser.py:206-212 etc.): the calls the listener receives; [has]: [hasattr(listener, name)]. *)
Fixpoint walk (has : pystr -> bool) (t : ptree) : list event :=
  match t with
  | Leaf k => [Terminal k]
  | Node r ch =>
      EnterEvery t :: (if has (enter_name r) then [Call (enter_name r) t] else []) ++
      flat_map (walk has) ch ++
      (if has (exit_name r) then [Call (exit_name r) t] else []) ++ [ExitEvery t]
  end.
(** [visitor.visit(tree)] with [accept] of the context classes (FCSParser.py:214-218 etc.) and
    [visitChildren] of antlr4's ParseTreeVisitor: the value of a context without a method of its own is that of its last child.
    [meth name]: the method of that name, if the class has one. *)
Fixpoint visit_value {A} (none : A) (terminal : token -> A) (meth : pystr -> option (ptree -> A)) (t : ptree) : A :=
  match t with
  | Leaf k => terminal k
  | Node r ch => match meth (visit_name r) with
                 | Some f => f t
                 | None => fold_left (fun _ c => visit_value none terminal meth c) ch none
                 end
  end.
(** The calls when every method of the class records itself and goes on to the children, as those of
    [FCSParserVisitor] do (FCSParserVisitor.py:10-124). *)
Fixpoint visit_calls (has : pystr -> bool) (t : ptree) : list event :=
  match t with
  | Leaf k => [Terminal k]
  | Node r ch => (if has (visit_name r) then [Call (visit_name r) t] else []) ++ flat_map (visit_calls has) ch
  end.
