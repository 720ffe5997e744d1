(** [QueryParser.parse] step by step: several calls on one parser object at the same time
    (threads), interrupted at arbitrary points.  parser.py:1700-1756.

    A step is the part of a call between two accesses to data another thread can see, or
    between two points at which [error_listener.errors] grows.  Everything else
    ([error_listener], streams, lexer, parser, builder) is created by the call itself and local to it.
    Simplifications: the attributes of the parser other than [errors] are not assigned during a run
    ([parse] never assigns them); the DFA objects shared by all parsers do not
    influence results (proved in PropsCache.v). *)
From Coq Require Import String.
From Verif Require Import Base LexRules Lexer Grammar Antlr Ast Builder Parser.
Local Open Scope Z_scope.

(** How a call ends: a tree, an exception of the [try] statement, or an exception that is not an
    [Exception] (KeyboardInterrupt, SystemExit), which passes the handlers of parser.py:1748-1753. *)
Inductive outcome := Returned (n : qnode) | Raised (e : exn) | Interrupted.

(** Where a call is:
    [PCall] before [ErrorListener(query)] (1714); [PQuery errs todo] in the [try] up to the end of
    [parser.query()] (1715-1729): errors recorded so far and listener calls to come;
    [PBuild] after the test of 1731; [PFinally errs o] before the [finally] clause (1754-1756); [PDone]. *)
Inductive pc :=
| PCall | PQuery (errs : list error_detail) (todo : list lcall) | PBuild
| PFinally (errs : list error_detail) (o : outcome) | PDone (o : outcome).

(** A call [P.parse(query)]; [c_hit] is bookkeeping: whether the call was hit by an interrupt or a fault. *)
Record call := mkCallSt { c_query : pystr; c_pc : pc; c_hit : bool }.
(** The parser object and all calls on it; [w_writer] is bookkeeping: which call assigned [self.errors] last. *)
Record world := mkWorld { w_parser : qparser; w_writer : option nat; w_calls : list call }.

Definition outcome_of (r : res qnode) : outcome := match r with Ok n => Returned n | Raise e => Raised e end.

(** One step of a call: the new place, and what is assigned to [self.errors] if anything. *)
Definition step_call (V : env) (C : pcfg) (q : pystr) (p : pc) : pc * option (list error_detail) :=
  match p with
  | PCall => (PQuery [] (listener_calls V q), None)
  | PQuery errs (c :: todo) => (PQuery (errs ++ [syntaxError q c]) todo, None)
  | PQuery [] [] => (PBuild, None)
  | PQuery ((e :: _) as errs) [] =>
      (PFinally errs (Raised (QueryParserError (u "unable to parse query: " ++ ed_message e))), None)
  | PBuild =>
      (PFinally [] (outcome_of (handle match antlr_query (tokens q) with
         | Some t => build_tree (e_penv V) C t
         | None => Raise (QueryParserError (u "unable to parse query: ?"))
         end)), None)
  | PFinally errs o => (PDone o, Some errs)
  | PDone o => (PDone o, None)
  end.
(** An asynchronous exception that is no [Exception]: in the [try] it reaches the [finally] clause; before
    and in the [finally] clause [self.errors] is not assigned. *)
Definition interrupt_call (p : pc) : pc :=
  match p with
  | PCall => PDone Interrupted
  | PQuery errs _ => PFinally errs Interrupted
  | PBuild => PFinally [] Interrupted
  | PFinally _ _ => PDone Interrupted
  | PDone o => PDone o
  end.
(** MemoryError, RecursionError or any other unexpected [Exception] in the [try], parser.py:1752-1753. *)
Definition fault_call (p : pc) : pc :=
  let o := Raised (QueryParserError (u "an unexpected exception occured while parsing")) in
  match p with
  | PQuery errs _ => PFinally errs o
  | PBuild => PFinally [] o
  | p => p
  end.

(** What can happen next: a new call, a step of call number [i], an interrupt or fault in it. *)
Inductive act := ANew (q : pystr) | AStep (i : nat) | AInterrupt (i : nat) | AFault (i : nat).

Definition set_nth {A} (i : nat) (a : A) (l : list A) : list A :=
  firstn i l ++ match skipn i l with [] => [] | _ :: r => a :: r end.
Definition exec (V : env) (w : world) (a : act) : world :=
  match a with
  | ANew q => mkWorld (w_parser w) (w_writer w) (w_calls w ++ [mkCallSt q PCall false])
  | AStep i =>
      match nth_error (w_calls w) i with
      | None => w
      | Some c =>
          let (p, wr) := step_call V (qp_cfg (w_parser w)) (c_query c) (c_pc c) in
          let calls := set_nth i (mkCallSt (c_query c) p (c_hit c)) (w_calls w) in
          match wr with
          | None => mkWorld (w_parser w) (w_writer w) calls
          | Some errs => mkWorld (mkParser (qp_cfg (w_parser w)) errs) (Some i) calls
          end
      end
  | AInterrupt i =>
      match nth_error (w_calls w) i with
      | None => w
      | Some c => mkWorld (w_parser w) (w_writer w) (set_nth i (mkCallSt (c_query c) (interrupt_call (c_pc c)) (match c_pc c with PDone _ => c_hit c | _ => true end)) (w_calls w))
      end
  | AFault i =>
      match nth_error (w_calls w) i with
      | None => w
      | Some c => mkWorld (w_parser w) (w_writer w) (set_nth i (mkCallSt (c_query c) (fault_call (c_pc c)) (match c_pc c with PQuery _ _ | PBuild => true | _ => c_hit c end)) (w_calls w))
      end
  end.
(** A schedule is a list of such events, in the order in which they happen. *)
Definition run (V : env) (w : world) (s : list act) : world := fold_left (exec V) s w.
Definition idle (P : qparser) : world := mkWorld P None [].
