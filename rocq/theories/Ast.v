(** The expression tree classes of parser.py: nodes, accessors, [__str__],
    the object heap (parent links) and the visitor classes. *)
From Coq Require Import String.
From Verif Require Import Base.
Local Open Scope Z_scope.

(** [class Operator], parser.py:85-94 *)
Inductive operator := EQUALS | NOT_EQUALS.
Definition operator_eqb (a b : operator) : bool :=
  match a, b with EQUALS, EQUALS | NOT_EQUALS, NOT_EQUALS => true | _, _ => false end.
Definition operator_str (o : operator) : pystr :=
  match o with EQUALS => u "Eq" | NOT_EQUALS => u "Ne" end.

(** [class RegexFlag], parser.py:97-118, and sets of flags. *)
Inductive flag := CASE_INSENSITIVE | CASE_SENSITIVE | LITERAL_MATCHING | IGNORE_DIACRITICS.
Record flags := mkFlags { f_ci : bool; f_cs : bool; f_lit : bool; f_dia : bool }.
Definition no_flags : flags := mkFlags false false false false.
Definition flag_in (f : flag) (s : flags) : bool :=
  match f with
  | CASE_INSENSITIVE => f_ci s | CASE_SENSITIVE => f_cs s
  | LITERAL_MATCHING => f_lit s | IGNORE_DIACRITICS => f_dia s
  end.
Definition flag_add (f : flag) (s : flags) : flags :=
  match f with
  | CASE_INSENSITIVE => mkFlags true (f_cs s) (f_lit s) (f_dia s)
  | CASE_SENSITIVE => mkFlags (f_ci s) true (f_lit s) (f_dia s)
  | LITERAL_MATCHING => mkFlags (f_ci s) (f_cs s) true (f_dia s)
  | IGNORE_DIACRITICS => mkFlags (f_ci s) (f_cs s) (f_lit s) true
  end.
(** Truthiness of a set. *)
Definition flags_nonempty (s : flags) : bool := f_ci s || f_cs s || f_lit s || f_dia s.

(** [class SimpleWithinScope], parser.py:121-138 *)
Inductive scope := SENTENCE | UTTERANCE | PARAGRAPH | TURN | TEXT | SESSION.
Definition scope_str (s : scope) : pystr :=
  match s with
  | SENTENCE => u "Sentence" | UTTERANCE => u "Utterance" | PARAGRAPH => u "Paragraph"
  | TURN => u "Turn" | TEXT => u "Text" | SESSION => u "Session"
  end.

(** [OCCURS_UNBOUNDED], parser.py:45 *)
Definition OCCURS_UNBOUNDED : Z := -1.

(** [class SourceLocation], parser.py:345-380 *)
Record sloc := mkLoc { l_start : Z; l_stop : Z }.

(** The classes of nodes with the attributes they add to [QueryNode]:
    parser.py: Expression 516, ExpressionWildcard 672, ExpressionGroup 683, ExpressionNot 701,
    ExpressionAnd 719, ExpressionOr 740, QueryDisjunction 764, QuerySequence 776,
    QueryWithWithin 788, QuerySegment 818, QueryGroup 856, SimpleWithin 897. *)
Inductive payload :=
| PExpr (qualifier : option pystr) (identifier : pystr) (op : operator) (regex : pystr)
        (regex_flags : option flags)
| PWildcard | PExprGroup | PNot | PAnd | POr
| PDisjunction | PSequence | PWithWithin
| PSegment (min_occurs max_occurs : Z)
| PQGroup (min_occurs max_occurs : Z)
| PSimpleWithin (s : scope).

(** The Python class of a node ([type(node)]; no class derives from another
    one except from [QueryNode]). *)
Inductive class :=
| CExpression | CExpressionWildcard | CExpressionGroup | CExpressionNot | CExpressionAnd
| CExpressionOr | CQueryDisjunction | CQuerySequence | CQueryWithWithin | CQuerySegment
| CQueryGroup | CSimpleWithin.
Definition class_of (p : payload) : class :=
  match p with
  | PExpr _ _ _ _ _ => CExpression | PWildcard => CExpressionWildcard
  | PExprGroup => CExpressionGroup | PNot => CExpressionNot | PAnd => CExpressionAnd
  | POr => CExpressionOr | PDisjunction => CQueryDisjunction | PSequence => CQuerySequence
  | PWithWithin => CQueryWithWithin | PSegment _ _ => CQuerySegment | PQGroup _ _ => CQueryGroup
  | PSimpleWithin _ => CSimpleWithin
  end.
Definition class_eq_dec (a b : class) : {a = b} + {a <> b}.
Proof. decide equality. Defined.
Definition class_eqb (a b : class) : bool := if class_eq_dec a b then true else false.

(** [class QueryNodeType], parser.py:51-82 *)
Inductive node_type :=
| QUERY_SEGMENT | QUERY_GROUP | QUERY_SEQUENCE | QUERY_DISJUNCTION | QUERY_WITH_WITHIN
| EXPRESSION | EXPRESSION_WILDCARD | EXPRESSION_GROUP | EXPRESSION_OR | EXPRESSION_AND
| EXPRESSION_NOT | SIMPLE_WITHIN.
Definition node_type_str (t : node_type) : pystr :=
  match t with
  | QUERY_SEGMENT => u "QuerySegment" | QUERY_GROUP => u "QueryGroup"
  | QUERY_SEQUENCE => u "QuerySequence" | QUERY_DISJUNCTION => u "QueryDisjunction"
  | QUERY_WITH_WITHIN => u "QueryWithWithin" | EXPRESSION => u "Expression"
  | EXPRESSION_WILDCARD => u "Wildcard" | EXPRESSION_GROUP => u "Group" | EXPRESSION_OR => u "Or"
  | EXPRESSION_AND => u "And" | EXPRESSION_NOT => u "Not" | SIMPLE_WITHIN => u "SimpleWithin"
  end.
Definition node_type_eq_dec (a b : node_type) : {a = b} + {a <> b}.
Proof. decide equality. Defined.

(** The [node_type] each constructor passes to [super().__init__]: parser.py:537, 680,
    692, 710, 728, 749, 773, 785, 799, 829, 867 (QueryGroup passes QUERY_SEGMENT), 901. *)
Definition ntype_of (p : payload) : node_type :=
  match p with
  | PExpr _ _ _ _ _ => EXPRESSION | PWildcard => EXPRESSION_WILDCARD
  | PExprGroup => EXPRESSION_GROUP | PNot => EXPRESSION_NOT | PAnd => EXPRESSION_AND
  | POr => EXPRESSION_OR | PDisjunction => QUERY_DISJUNCTION | PSequence => QUERY_SEQUENCE
  | PWithWithin => QUERY_WITH_WITHIN | PSegment _ _ => QUERY_SEGMENT
  | PQGroup _ _ => QUERY_SEGMENT | PSimpleWithin _ => SIMPLE_WITHIN
  end.

(** [Expression.__init__], parser.py:519-561: blank qualifiers and empty flag
    sets become [None]. *)
Definition mk_expression (qualifier : option pystr) (identifier : pystr) (op : operator)
    (regex : pystr) (fl : option flags) : payload :=
  PExpr (match qualifier with
         | Some ((_ :: _) as s) => if isspace s then None else Some s
         | _ => None
         end)
        identifier op regex
        (match fl with Some s => if flags_nonempty s then Some s else None | None => None end).

(** A node as a value (without the parent link). *)
Inductive qnode := QN (p : payload) (loc : option sloc) (children : list qnode).
Definition q_payload (n : qnode) := match n with QN p _ _ => p end.
Definition q_loc (n : qnode) := match n with QN _ l _ => l end.
Definition q_children (n : qnode) := match n with QN _ _ c => c end.
Definition q_class (n : qnode) := class_of (q_payload n).
(** [isinstance(child, clazz)] *)
Definition isinstance (c : class) (n : qnode) : bool := class_eqb (q_class n) c.

(** [node.node_type] and [has_node_type], parser.py:428-442; [None] raises TypeError. *)
Definition has_node_type (n : qnode) (t : option node_type) : res bool :=
  match t with
  | None => Raise (TypeErrorExn (u "node_type is None"))
  | Some t => Ok (if node_type_eq_dec (ntype_of (q_payload n)) t then true else false)
  end.

(** [child_count], parser.py:445-451 *)
Definition child_count (n : qnode) : Z := Z.of_nat (List.length (q_children n)).

(** The search loop of [get_child] with a class, parser.py:472-478. *)
Fixpoint nth_of_class (c : class) (pos idx : Z) (l : list qnode) : option qnode :=
  match l with
  | [] => None
  | x :: l' => if isinstance c x then
                 if pos =? idx then Some x else nth_of_class c (pos + 1) idx l'
               else nth_of_class c pos idx l'
  end.

(** [get_child], parser.py:453-478 (note [idx > self.child_count]). *)
Definition get_child (n : qnode) (idx : Z) (clazz : option class) : res (option qnode) :=
  match q_children n with
  | [] => Ok None
  | ch =>
      if (idx <? 0) || (child_count n <? idx) then Ok None
      else match clazz with
           | None => match nth_error ch (Z.to_nat idx) with
                     | Some c => Ok (Some c)
                     | None => Raise IndexError
                     end
           | Some c => Ok (nth_of_class c 0 idx ch)
           end
  end.

(** parser.py:480-489 *)
Definition get_first_child (n : qnode) (clazz : option class) := get_child n 0 clazz.
(** parser.py:491-500 *)
Definition get_last_child (n : qnode) (clazz : option class) :=
  get_child n (child_count n - 1) clazz.

(** [QueryWithWithin.__init__], parser.py:791-799 *)
Definition mk_with_within (query : qnode) (within : option qnode) : qnode :=
  QN PWithWithin None (match within with Some w => [query; w] | None => [query] end).
(** [QueryWithWithin.get_query] / [QuerySegment.get_expression] / [QueryGroup.get_content],
    parser.py:801-807, 836-842, 874-880 *)
Definition first_of_children (n : qnode) : res qnode :=
  match q_children n with c :: _ => Ok c | [] => Raise IndexError end.
(** [get_within], parser.py:809-815 *)
Definition get_within (n : qnode) : res (option qnode) := get_child n 1 None.

(** Expression predicates, parser.py:563-647 (on the attributes of an Expression). *)
Definition has_layer_identifier (identifier : pystr) (arg : option pystr) : res bool :=
  match arg with
  | None => Raise (TypeErrorExn (u "identifier is None"))
  | Some s => Ok (str_eqb identifier s)
  end.
(** parser.py:579-586: returns [bool(self.qualifier)] *)
Definition is_layer_qualifier_empty (qualifier : option pystr) : bool := truthy qualifier.
(** parser.py:588-605 *)
Definition has_layer_qualifier (qualifier : option pystr) (arg : option pystr) : res bool :=
  match arg with
  | None => Raise (TypeErrorExn (u "qualifier is None"))
  | Some s =>
      if is_layer_qualifier_empty qualifier then Ok false
      else Ok (match qualifier with Some q => str_eqb q s | None => false end)
  end.
(** parser.py:607-621 *)
Definition has_operator (op : operator) (arg : option operator) : res bool :=
  match arg with
  | None => Raise (TypeErrorExn (u "operator is None"))
  | Some o => Ok (operator_eqb op o)
  end.
(** parser.py:623-629: returns [bool(self.regex_flags)] *)
Definition is_regex_flags_empty (fl : option flags) : bool :=
  match fl with Some s => flags_nonempty s | None => false end.
(** parser.py:631-647 *)
Definition has_regex_flag (fl : option flags) (arg : option flag) : res bool :=
  match arg with
  | None => Raise (TypeErrorExn (u "flag is None"))
  | Some f => match fl with
              | Some s => if flags_nonempty s then Ok (flag_in f s) else Ok false
              | None => Ok false
              end
  end.

(** ** [__str__] *)

(** [@start:stop] suffix (parser.py:505-506 and the overrides). *)
Definition loc_suffix (l : option sloc) : pystr :=
  match l with
  | Some l => u "@" ++ dec (l_start l) ++ u ":" ++ dec (l_stop l)
  | None => []
  end.
(** [str.translate] of parser.py:654 *)
Definition esc_display (s : pystr) : pystr :=
  flat_map (fun c => if N.eqb c 10 then u "\n" else if N.eqb c 13 then u "\r"
                     else if N.eqb c 9 then u "\t" else [c]) s.
Definition dquote : pystr := [34%N].
(** parser.py:649-666 *)
Definition expr_str (q : option pystr) (i : pystr) (o : operator) (r : pystr) (f : option flags)
  : pystr :=
  u "(Expression " ++ (if truthy q then match q with Some q => q ++ u ":" | None => [] end else [])
  ++ i ++ u " " ++ operator_str o ++ u " " ++ dquote ++ esc_display r ++ dquote
  ++ match f with
     | Some s => if flags_nonempty s then
                   u "/" ++ (if f_ci s then u "i" else []) ++ (if f_cs s then u "I" else [])
                   ++ (if f_lit s then u "l" else []) ++ (if f_dia s then u "d" else [])
                 else []
     | None => []
     end ++ u ")".
(** parser.py:846-849, 884-887 *)
Definition occ (z : Z) : pystr := if z =? OCCURS_UNBOUNDED then u "*" else dec z.
Definition occurs_str (mn mx : Z) : pystr :=
  (if mn =? 1 then [] else u "@min=" ++ occ mn ++ u " ")
  ++ (if mx =? 1 then [] else u "@max=" ++ occ mx ++ u " ").

(** parser.py:695, 713 *)
Definition first_or_none (ss : list pystr) : pystr :=
  match ss with [] => u "None" | s :: _ => s end.
(** parser.py:503-504 *)
Definition sp_join (ss : list pystr) : pystr :=
  let chs := join (u " ") ss in match chs with [] => [] | _ :: _ => u " " ++ chs end.

(** [str(node)], parser.py:502-507 and the overrides 649, 694, 712, 844, 882, 906.
    A QuerySegment/QueryGroup without child raises IndexError ([self.children[0]]). *)
Definition str_of (p : payload) (l : option sloc) (strs : res (list pystr)) : res pystr :=
  let ty := node_type_str (ntype_of p) in
  rmap (fun s => s ++ loc_suffix l)
    match p with
    | PExpr q i o r f => Ok (expr_str q i o r f)
    | PSimpleWithin s => Ok (u "(" ++ ty ++ u " " ++ scope_str s ++ u ")")
    | PExprGroup | PNot =>
        rmap (fun ss => u "(" ++ ty ++ u " " ++ first_or_none ss ++ u ")") strs
    | PSegment mn mx | PQGroup mn mx =>
        rbind strs (fun ss => match ss with
                              | [] => Raise IndexError
                              | s :: _ => Ok (u "(" ++ ty ++ u " " ++ occurs_str mn mx ++ s ++ u ")")
                              end)
    | _ => rmap (fun ss => u "(" ++ ty ++ sp_join ss ++ u ")") strs
    end.
Fixpoint node_str (n : qnode) : res pystr :=
  match n with
  | QN p l ch =>
      str_of p l ((fix go l := match l with
                               | [] => Ok []
                               | c :: l' => rbind (node_str c) (fun s => rmap (cons s) (go l'))
                               end) ch)
  end.

(** ** The object heap: nodes with identity and parent links *)

Record hnode := mkH { h_payload : payload; h_loc : option sloc; h_children : list nat;
                      h_parent : option nat }.
Definition heap := list hnode.    (* an object's identity is its index *)

Fixpoint upd (l : heap) (i : nat) (f : hnode -> hnode) : heap :=
  match l, i with
  | [], _ => []
  | x :: l', O => f x :: l'
  | x :: l', S i' => x :: upd l' i' f
  end.

Definition set_parent (p : nat) (h : heap) (c : nat) : heap :=
  upd h c (fun x => mkH (h_payload x) (h_loc x) (h_children x) (Some p)).

(** [QueryNode.__init__], parser.py:386-426: [children] (copied), then [child] if
    given; the new object's parent is None, each child's parent becomes the new object. *)
Definition init_node (p : payload) (children : list nat) (child : option nat) (h : heap)
  : heap * nat :=
  let n := List.length h in
  let cs := children ++ match child with Some c => [c] | None => [] end in
  (fold_left (set_parent n) cs (h ++ [mkH p None cs None]), n).

(** [node.location = ...] *)
Definition set_loc_h (n : nat) (l : option sloc) (h : heap) : heap :=
  upd h n (fun x => mkH (h_payload x) l (h_children x) (h_parent x)).

(** ** Visitors *)

Section Visitor.
  (** [S]: the visitor object's state, [E]: exceptions, [R]: result type. *)
  Context {S E R : Type}.
  Definition outcome : Type := S * (E + option R).

  (** A [visit_] method; its first argument is [super().visit_...] / [visitChildren]. *)
  Definition method := (S -> outcome) -> qnode -> S -> outcome.
  (** [getattr(self, name, ...)]: the methods of the visitor's class by name. *)
  Definition methods := pystr -> option method.

  (** [visitChildren], parser.py:177-188; default/aggregate/shouldVisit as
      inherited (190-197): result of the last child, [None] without children.
      Simplification: iterates over [children] instead of [get_child(i)] for i in range. *)
  Definition visit_children (visit : qnode -> S -> outcome) : list qnode -> option R -> S -> outcome :=
    fix go (l : list qnode) (acc : option R) (s : S) : outcome :=
      match l with
      | [] => (s, inr acc)
      | c :: l' => match visit c s with
                   | (s', inr r) => go l' r s'
                   | (s', inl e) => (s', inl e)
                   end
      end.

  (** [visit], parser.py:150-172 (and [accept], 509). *)
  Fixpoint visit (cls : methods) (n : qnode) (s : S) : outcome :=
    match n with
    | QN p _ ch =>
        let children := visit_children (visit cls) ch None in
        match cls (u "visit_" ++ node_type_str (ntype_of p)) with
        | Some m => m children n s
        | None => children s
        end
    end.
End Visitor.

(** The method names of [QueryVisitorAdapter] and the class each is documented
    for, parser.py:200-338. *)
Definition adapter_method (c : class) : pystr :=
  match c with
  | CExpression => u "visit_Expression" | CExpressionWildcard => u "visit_ExpressionWildcard"
  | CExpressionGroup => u "visit_ExpressionGroup" | CExpressionNot => u "visit_ExpressionNot"
  | CExpressionAnd => u "visit_ExpressionAnd" | CExpressionOr => u "visit_ExpressionOr"
  | CQueryDisjunction => u "visit_QueryDisjunction" | CQuerySequence => u "visit_QuerySequence"
  | CQueryWithWithin => u "visit_QueryWithWithin" | CQuerySegment => u "visit_QuerySegment"
  | CQueryGroup => u "visit_QueryGroup" | CSimpleWithin => u "visit_SimpleWithin"
  end.
Definition all_classes : list class :=
  [CExpression; CExpressionWildcard; CExpressionGroup; CExpressionNot; CExpressionAnd;
   CExpressionOr; CQueryDisjunction; CQuerySequence; CQueryWithWithin; CQuerySegment;
   CQueryGroup; CSimpleWithin].
Definition adapter_names : list pystr := map adapter_method all_classes.
(** [QueryVisitorAdapter]: every method just visits the children. *)
Definition adapter {S E R} : methods (S:=S) (E:=E) (R:=R) :=
  fun name => if str_in name adapter_names then Some (fun sup _ s => sup s) else None.
