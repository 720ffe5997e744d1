(** [ExpressionTreeBuilder], parser.py:1028-1668: the visitor with an explicit
    stack that turns ANTLR's parse tree into an expression tree.

    Not modelled: logging (parser.py:1037-1044 and similar), Python's recursion limit. *)
From Coq Require Import String.
From Verif Require Import Base LexRules Lexer Grammar Antlr Ast.
Local Open Scope Z_scope.

(** Unicode normalisation forms, parser.py:42 *)
Inductive nform := NFC | NFD | NFKC | NFKD.

(** What the code takes from its runtime environment:
    [unicodedata.normalize], the interpreter's int-from-string digit limit
    ([sys.get_int_max_str_digits()], 0 = unlimited), and whether [chr] of a number
    beyond a C int raises OverflowError (interpreters before 3.13) instead of ValueError. *)
Record penv := mkPEnv { env_normalize : nform -> pystr -> pystr; env_max_digits : Z; env_chr_overflows : bool }.

(** Configuration of a [QueryParser], parser.py:1674-1698. *)
Record pcfg := mkCfg {
  default_identifier : pystr; default_operator : operator;
  unicode_normalization_form : option nform; enableSourceLocations : bool }.
(** Defaults, parser.py:922-924, 1674-1681 *)
Definition DEFAULT_IDENTIFIER : pystr := u "text".
Definition default_cfg (locations : bool) : pcfg :=
  mkCfg DEFAULT_IDENTIFIER EQUALS (Some NFC) locations.

(** ** Static helpers *)

(** [getChildIndex], parser.py:1546-1553 (only called with [start >= 0]). *)
Fixpoint child_index_from (ch : list ptree) (idx : Z) (ty : ttype) : Z :=
  match ch with
  | [] => -1
  | Leaf k :: ch' => if ttype_eqb (t_type k) ty then idx else child_index_from ch' (idx + 1) ty
  | Node _ _ :: ch' => child_index_from ch' (idx + 1) ty
  end.
Definition getChildIndex (ch : list ptree) (start : Z) (ty : ttype) : Z :=
  if (0 <=? start) && (start <? Z.of_nat (List.length ch))
  then child_index_from (skipn (Z.to_nat start) ch) start ty else -1.

(** Decimal value of a digit string. *)
Definition is_digit (c : N) : bool := ((48 <=? c) && (c <=? 57))%N.
Definition digit_val (c : N) : Z := Z.of_N c - 48.
Definition dec_value (s : pystr) : Z := fold_left (fun a c => a * 10 + digit_val c) s 0.

(** [parseInt], parser.py:1556-1560.  Simplification: [int] is modelled on
    non-empty ASCII digit strings only (INTEGER tokens); anything else is "invalid". *)
Definition parseInt (E : penv) (val : pystr) : res Z :=
  if (match val with [] => false | _ :: _ => forallb is_digit val end)
     && ((env_max_digits E =? 0) || (zlen val <=? env_max_digits E))
  then Ok (dec_value val)
  else Raise (BuilderError (u "invalid integer: " ++ val)).

(** [ctx.getChild(i).getText()] *)
Definition child_text (ch : list ptree) (i : Z) : res pystr :=
  match get_child_ctx i ch with Some t => Ok (get_text t) | None => Raise IndexError end.

(** [processRepetitionRange], parser.py:1524-1543 *)
Definition processRepetitionRange (E : penv) (ch : list ptree) : res (Z * Z) :=
  let comma_idx := getChildIndex ch 0 Q_COMMA in
  let int1_idx := getChildIndex ch 0 INTEGER in
  let int2_idx := getChildIndex ch (int1_idx + 1) INTEGER in
  let int_at i := rbind (child_text ch i) (parseInt E) in
  rbind
    (if negb (comma_idx =? -1) then
       rbind (if int1_idx <? comma_idx then int_at int1_idx else Ok 0) (fun mn =>
       rbind (if comma_idx <? int1_idx then int_at int1_idx
              else if comma_idx <? int2_idx then int_at int2_idx
              else Ok OCCURS_UNBOUNDED) (fun mx => Ok (mn, mx)))
     else if int1_idx =? -1 then Raise (BuilderError (u "int1_idx == -1"))
     else rmap (fun v => (v, v)) (int_at int1_idx))
    (fun '(mn, mx) =>
       if negb (mx =? OCCURS_UNBOUNDED) && (mx <? mn) then
         Raise (BuilderError (u "bad qualifier: min > max (" ++ dec mn ++ u " > " ++ dec mx ++ u ")"))
       else Ok (mn, mx)).

(** [ctx.T() is not None] *)
Definition has_token (ty : ttype) (ch : list ptree) : bool :=
  match find_token ty ch with Some _ => true | None => false end.

(** [processRepetition], parser.py:1508-1521, REP_ constants 916-918.
    Simplification: the text of the unreachable final error is abridged. *)
Definition processRepetition (E : penv) (ch : list ptree) : res (Z * Z) :=
  if has_token Q_ZERO_OR_MORE ch then Ok (0, OCCURS_UNBOUNDED)
  else if has_token Q_ONE_OR_MORE ch then Ok (1, OCCURS_UNBOUNDED)
  else if has_token Q_ZERO_OR_ONE ch then Ok (0, 1)
  else if has_token L_CURLY_BRACKET ch then processRepetitionRange E ch
  else Raise (BuilderError (u "unexpected symbol in repetition quantifier: ?")).

(** [val[1:-1]] *)
Definition strip_ends (s : pystr) : pystr := removelast (tl s).
(** [stripQuotes], parser.py:1563-1578 *)
Definition stripQuotes (val : pystr) : res pystr :=
  if startswith [34%N] val then
    if endswith_char 34 val then Ok (strip_ends val)
    else Raise (BuilderError (u "value not properly quoted; invalid closing quote"))
  else if startswith [39%N] val then
    if endswith_char 39 val then Ok (strip_ends val)
    else Raise (BuilderError (u "value not properly quoted; invalid closing quote"))
  else Raise (BuilderError
         (u "value not properly quoted; expected " ++ [34%N]
          ++ u " (double quote) or ' (single qoute) character")).

(** [parseHexChar], parser.py:1660-1668.  Simplification: ASCII hex digits only
    (the lexer guarantees them). *)
Definition parseHexChar (c : N) : res N :=
  (if (48 <=? c) && (c <=? 57) then Ok (c - 48)
   else if (97 <=? c) && (c <=? 102) then Ok (c - 87)
   else if (65 <=? c) && (c <=? 70) then Ok (c - 55)
   else Raise (BuilderError (u "invalud hex character: " ++ [c])))%N.

(** The loop of [unescapeUnicode], parser.py:1645-1650 ([cp << 4 | d] as [cp*16 + d]). *)
Fixpoint hex_digits (cp : N) (s : pystr) : res N :=
  match s with
  | [] => Ok cp
  | c :: s' => rbind (parseHexChar c) (fun d => hex_digits (cp * 16 + d)%N s')
  end.

(** [chr(cp)] with the handler of parser.py:1651-1654; [chr] raises ValueError above
    10FFFF, and OverflowError in older interpreters when the argument does not fit a C int. *)
Definition chr (E : penv) (cp : N) : res pystr :=
  if (cp <=? 1114111)%N then Ok [cp]
  else if (cp <? 2147483648)%N || negb (env_chr_overflows E) then Raise (BuilderError (u "invalid codepoint: U+" ++ hex_upper cp))
  else Raise OverflowError.

(** [unescapeUnicode(val, i, size)], parser.py:1642-1657; [c] is [val[i]], [rest] is [val[i+1:]]. *)
Definition unescapeUnicode (E : penv) (c : N) (rest : pystr) (size : nat) : res pystr :=
  if (size <=? List.length rest)%nat then rbind (hex_digits 0 (firstn size rest)) (chr E)
  else Raise (BuilderError (u "truncated escape sequence: \" ++ [c])).

(** One escape: characters appended and how many characters after [cp] are
    skipped, parser.py:1590-1633. *)
Definition unescape_one (E : penv) (c : N) (rest : pystr) : res (pystr * nat) :=
  if N.eqb c 92 then Ok ([92%N], O)
  else if N.eqb c 34 then Ok ([34%N], O)
  else if N.eqb c 39 then Ok ([39%N], O)
  else if N.eqb c 110 then Ok ([10%N], O)
  else if N.eqb c 116 then Ok ([9%N], O)
  else if N.eqb c 46 then Ok ([92%N; 46%N], O)
  else if N.eqb c 94 then Ok ([92%N; 94%N], O)
  else if N.eqb c 36 then Ok ([92%N; 36%N], O)
  else if N.eqb c 42 then Ok ([92%N; 42%N], O)
  else if N.eqb c 43 then Ok ([92%N; 43%N], O)
  else if N.eqb c 63 then Ok ([92%N; 63%N], O)
  else if N.eqb c 40 then Ok ([92%N; 40%N], O)
  else if N.eqb c 41 then Ok ([92%N; 41%N], O)
  else if N.eqb c 123 then Ok ([92%N; 123%N], O)
  else if N.eqb c 91 then Ok ([92%N; 91%N], O)
  else if N.eqb c 124 then Ok ([92%N; 124%N], O)
  else if N.eqb c 120 then rmap (fun s => (s, 2%nat)) (unescapeUnicode E c rest 2)
  else if N.eqb c 117 then rmap (fun s => (s, 4%nat)) (unescapeUnicode E c rest 4)
  else if N.eqb c 85 then rmap (fun s => (s, 8%nat)) (unescapeUnicode E c rest 8)
  else Raise (BuilderError (u "invalid escape sequence: \" ++ [c])).

(** [unescapeString], parser.py:1581-1639; the list argument is [val[i:]].
    [val[i]] after a final backslash raises IndexError. *)
Fixpoint unescape_loop (E : penv) (fuel : nat) (s : pystr) : res pystr :=
  match fuel, s with
  | _, [] => Ok []
  | O, _ :: _ => Raise OutOfFuel
  | S f, c :: s' =>
      if N.eqb c 92 then
        match s' with
        | [] => Raise IndexError
        | e :: rest =>
            rbind (unescape_one E e rest) (fun '(out, k) =>
            rmap (app out) (unescape_loop E f (skipn k rest)))
        end
      else rmap (cons c) (unescape_loop E f s')
  end.
Definition unescapeString (E : penv) (val : pystr) : res pystr := unescape_loop E (List.length val) val.

(** ** The visitor *)

(** [visitRegexp], value part, parser.py:1409-1422 *)
Definition regexp_value (E : penv) (C : pcfg) (text : pystr) : res pystr :=
  rbind (stripQuotes text) (fun r =>
  rbind (if char_in 92 r then unescapeString E r else Ok r) (fun r =>
  Ok (match unicode_normalization_form C with Some f => env_normalize E f r | None => r end))).

(** [visitRegexp], flag loop, parser.py:1429-1440 *)
Fixpoint flag_loop (val : pystr) (fl : flags) : res flags :=
  match val with
  | [] => Ok fl
  | c :: val' =>
      if N.eqb c 105 || N.eqb c 99 then flag_loop val' (flag_add CASE_INSENSITIVE fl)
      else if N.eqb c 73 || N.eqb c 67 then flag_loop val' (flag_add CASE_SENSITIVE fl)
      else if N.eqb c 108 then flag_loop val' (flag_add LITERAL_MATCHING fl)
      else if N.eqb c 100 then flag_loop val' (flag_add IGNORE_DIACRITICS fl)
      else Raise (BuilderError (u "unknown regex modifier flag: " ++ [c]))
  end.

(** parser.py:1427-1460 *)
Definition regexp_flags (val : pystr) : res flags :=
  rbind (flag_loop val no_flags) (fun fl =>
  if f_cs fl && f_ci fl then
    Raise (BuilderError (u "invalid combination of regex modifier flags: 'i' or 'c' and 'I' or 'C' are mutually exclusive"))
  else if f_lit fl && (f_cs fl || f_ci fl || f_dia fl) then
    Raise (BuilderError (u "invalid combination of regex modifier flags: 'l' is mutually exclusive with 'i', 'c', 'I', 'C' or 'd'"))
  else Ok fl).

(** The scope table of [visitWithin_part_simple], parser.py:1482-1495 *)
Definition within_scope (val : pystr) : res scope :=
  if str_in val [u "sentence"; u "s"] then Ok SENTENCE
  else if str_in val [u "utterance"; u "u"] then Ok UTTERANCE
  else if str_in val [u "paragraph"; u "p"] then Ok PARAGRAPH
  else if str_in val [u "turn"; u "t"] then Ok TURN
  else if str_eqb val (u "text") then Ok TEXT
  else if str_eqb val (u "session") then Ok SESSION
  else Raise (BuilderError (u "invalid scope for simple 'within' clause: " ++ val)).

(** [SourceLocation.fromContext], parser.py:354-365 *)
Definition fromContext (t : ptree) : option sloc :=
  match ctx_start t, ctx_stop t with
  | Some a, Some b => Some (mkLoc (t_start a) (t_stop b + 1))
  | _, _ => None
  end.

Section Builder.
  (** The builder is written once for two readings of object construction:
      nodes as values and nodes as heap objects with parent links.
      [new_node p cs h]: a constructor call; [set_loc]: [node.location = ...]. *)
  Context {H Nd : Type} (new_node : payload -> list Nd -> H -> H * Nd)
          (set_loc : Nd -> option sloc -> H -> H * Nd).
  Variables (E : penv) (C : pcfg).

  (** Items on [self.stack] (a [Deque[Any]], parser.py:1032). *)
  Inductive item := SNode (n : Nd) | SStr (s : pystr) | SOp (o : operator) | SFlags (f : flags).
  (** The stack (head = top) and the heap. *)
  Definition st : Type := list item * H.

  Definition push (i : item) (s : st) : st := (i :: fst s, snd s).
  (** [self.stack.pop()]: IndexError on an empty stack.  An item of another kind
      than the code expects is modelled as an AttributeError at the pop (it would
      fail when used); proved unreachable. *)
  Definition pop (s : st) : res (item * st) :=
    match fst s with [] => Raise IndexError | i :: r => Ok (i, (r, snd s)) end.
  Definition pop_node (s : st) : res (Nd * st) :=
    rbind (pop s) (fun '(i, s) => match i with SNode n => Ok (n, s) | _ => Raise AttributeError end).
  Definition pop_str (s : st) : res (pystr * st) :=
    rbind (pop s) (fun '(i, s) => match i with SStr n => Ok (n, s) | _ => Raise AttributeError end).
  Definition pop_op (s : st) : res (operator * st) :=
    rbind (pop s) (fun '(i, s) => match i with SOp n => Ok (n, s) | _ => Raise AttributeError end).
  Definition pop_flags (s : st) : res (flags * st) :=
    rbind (pop s) (fun '(i, s) => match i with SFlags n => Ok (n, s) | _ => Raise AttributeError end).

  (** [node = Class(...); if enableSourceLocations: node.location = ...; stack.append(node)] *)
  Definition build (t : ptree) (p : payload) (cs : list Nd) (s : st) : st :=
    let (h1, n) := new_node p cs (snd s) in
    let (h2, n2) := if enableSourceLocations C then set_loc n (fromContext t) h1 else (h1, n) in
    (SNode n2 :: fst s, h2).

  (** [while len(self.stack) > pos: items.insert(0, self.stack.pop())], parser.py:1088-1089 *)
  Fixpoint take_nodes (k : nat) (s : st) (acc : list Nd) : res (list Nd * st) :=
    match k with
    | O => Ok (acc, s)
    | S k' => rbind (pop_node s) (fun '(n, s') => take_nodes k' s' (n :: acc))
    end.

  (** parser.py:1073-1099, 1101-1127, 1323-1349, 1351-1377: the four list-building visits. *)
  Definition visit_list (name : pystr) (p : payload) (t : ptree) (sup : st -> res st) (s : st)
    : res st :=
    let pos := List.length (fst s) in
    rbind (sup s) (fun s1 =>
    let n := List.length (fst s1) in
    if (pos <? n)%nat then
      rbind (take_nodes (n - pos) s1 []) (fun '(items, s2) => Ok (build t p items s2))
    else Raise (BuilderError (name ++ u " is empty"))).

  (** [visitQuery], parser.py:1036-1057 *)
  Definition visitQuery (t : ptree) (ch : list ptree) (sup : st -> res st) (s : st) : res st :=
    rbind (sup s) (fun s1 =>
    match find_rule within_part ch with
    | None => Ok s1
    | Some _ =>
        rbind (pop_node s1) (fun '(within, s2) =>
        rbind (pop_node s2) (fun '(q, s3) =>
        Ok (build t PWithWithin [q; within] s3)))
    end).

  (** Quantifier of [visitQuery_group]/[visitQuery_simple], parser.py:1140-1146, 1168-1174 *)
  Definition repetition (ch : list ptree) : res (Z * Z) :=
    match find_rule quantifier ch with
    | Some (Node _ qch) => processRepetition E qch
    | _ => Ok (1, 1)
    end.

  (** [visitQuery_group], parser.py:1129-1155 *)
  Definition visitQuery_group (t : ptree) (ch : list ptree) (sup : st -> res st) (s : st) : res st :=
    rbind (sup s) (fun s1 =>
    rbind (repetition ch) (fun '(mn, mx) =>
    rbind (pop_node s1) (fun '(content, s2) => Ok (build t (PQGroup mn mx) [content] s2)))).

  (** [visitQuery_simple], parser.py:1157-1183 *)
  Definition visitQuery_simple (t : ptree) (ch : list ptree) (sup : st -> res st) (s : st) : res st :=
    rbind (sup s) (fun s1 =>
    rbind (repetition ch) (fun '(mn, mx) =>
    rbind (pop_node s1) (fun '(e, s2) => Ok (build t (PSegment mn mx) [e] s2)))).

  (** The five pops and the construction shared by [visitQuery_implicit] (1200-1215)
      and [visitExpression_basic] (1264-1278). *)
  Definition finish_expression (t : ptree) (s : st) : res st :=
    rbind (pop_flags s) (fun '(fl, s) =>
    rbind (pop_str s) (fun '(regex, s) =>
    rbind (pop_str s) (fun '(qual, s) =>
    rbind (pop_str s) (fun '(ident, s) =>
    rbind (pop_op s) (fun '(op, s) =>
    Ok (build t (mk_expression (Some qual) ident op regex (Some fl)) [] s)))))).

  (** [visitQuery_implicit], parser.py:1185-1218 *)
  Definition visitQuery_implicit (t : ptree) (sup : st -> res st) (s : st) : res st :=
    rbind (sup (push (SStr []) (push (SStr (default_identifier C))
                 (push (SOp (default_operator C)) s))))
          (finish_expression t).

  (** [visitQuery_segment], parser.py:1220-1241 *)
  Definition visitQuery_segment (t : ptree) (ch : list ptree) (sup : st -> res st) (s : st) : res st :=
    if (List.length ch =? 2)%nat then Ok (build t PWildcard [] s) else sup s.

  (** [visitExpression_basic], parser.py:1243-1281 *)
  Definition visitExpression_basic (t : ptree) (ch : list ptree) (sup : st -> res st) (s : st)
    : res st :=
    rbind (if has_token OPERATOR_EQ ch then Ok (push (SOp EQUALS) s)
           else if has_token OPERATOR_NE ch then Ok (push (SOp NOT_EQUALS) s)
           else Raise AttributeError)   (* [tok_ok.text] on a rule context *)
          (fun s1 => rbind (sup s1) (finish_expression t)).

  (** [visitExpression_not] and [visitExpression_group], parser.py:1283-1321 *)
  Definition visit_unary (p : payload) (t : ptree) (sup : st -> res st) (s : st) : res st :=
    rbind (sup s) (fun s1 =>
    rbind (pop_node s1) (fun '(e, s2) => Ok (build t p [e] s2))).

  (** [visitAttribute], parser.py:1379-1398 *)
  Definition visitAttribute (ch : list ptree) (s : st) : res st :=
    let qual := match find_rule qualifier ch with Some q => get_text q | None => [] end in
    match find_rule identifier ch with
    | None => Raise AssertionError
    | Some i => Ok (push (SStr qual) (push (SStr (get_text i)) s))
    end.

  (** [visitRegexp], parser.py:1400-1467 *)
  Definition visitRegexp (ch : list ptree) (s : st) : res st :=
    match find_rule regexp_pattern ch with
    | None => Raise AssertionError
    | Some p =>
        rbind (regexp_value E C (get_text p)) (fun r =>
        let s1 := push (SStr r) s in
        match find_rule regexp_flag ch with
        | Some f => rmap (fun fl => push (SFlags fl) s1) (regexp_flags (get_text f))
        | None => Ok (push (SFlags no_flags) s1)
        end)
    end.

  (** [visitWithin_part_simple], parser.py:1469-1503 *)
  Definition visitWithin_part_simple (t : ptree) (ch : list ptree) (s : st) : res st :=
    match ch with
    | [] => Raise AssertionError
    | c :: _ => rmap (fun sc => build t (PSimpleWithin sc) [] s) (within_scope (get_text c))
    end.

  (** One visit method per rule; rules without an override use
      [FCSParserVisitor] (FCSParserVisitor.py:13-123), i.e. visit the children. *)
  Definition visit_rule (r : rule) (t : ptree) (ch : list ptree) (sup : st -> res st) (s : st)
    : res st :=
    match r with
    | query => visitQuery t ch sup s
    | query_disjunction => visit_list (u "visitQuery_disjunction") PDisjunction t sup s
    | query_sequence => visit_list (u "visitQuery_sequence") PSequence t sup s
    | query_group => visitQuery_group t ch sup s
    | query_simple => visitQuery_simple t ch sup s
    | query_implicit => visitQuery_implicit t sup s
    | query_segment => visitQuery_segment t ch sup s
    | expression_or => visit_list (u "visitExpression_or") POr t sup s
    | expression_and => visit_list (u "visitExpression_and") PAnd t sup s
    | expression_group => visit_unary PExprGroup t sup s
    | expression_not => visit_unary PNot t sup s
    | expression_basic => visitExpression_basic t ch sup s
    | attribute => visitAttribute ch s
    | regexp => visitRegexp ch s
    | within_part_simple => visitWithin_part_simple t ch s
    | main_query | quantifier | within_part | expression | qualifier | identifier
    | regexp_pattern | regexp_flag => sup s
    end.

  (** [tree.accept(visitor)] (antlr4 ParseTreeVisitor.visit/visitChildren). *)
  Fixpoint visit_tree (t : ptree) (s : st) : res st :=
    match t with
    | Leaf _ => Ok s
    | Node r ch =>
        visit_rule r t ch
          ((fix go (l : list ptree) (s : st) : res st :=
              match l with
              | [] => Ok s
              | c :: l' => rbind (visit_tree c s) (go l')
              end) ch) s
    end.

  (** [builder.visit(tree); builder.stack.pop()], parser.py:1736-1738 *)
  Definition run_builder (t : ptree) (h : H) : res (Nd * H) :=
    rbind (visit_tree t ([], h)) (fun s =>
    rmap (fun '(n, s') => (n, snd s')) (pop_node s)).
End Builder.

(** Nodes as values. *)
Definition new_tree (p : payload) (cs : list qnode) (h : unit) : unit * qnode := (h, QN p None cs).
Definition set_loc_tree (n : qnode) (l : option sloc) (h : unit) : unit * qnode :=
  (h, QN (q_payload n) l (q_children n)).
Definition build_tree (E : penv) (C : pcfg) (t : ptree) : res qnode :=
  rmap fst (run_builder new_tree set_loc_tree E C t tt).

(** Nodes as heap objects; the returned number identifies the root object. *)
Definition new_obj (p : payload) (cs : list nat) (h : heap) : heap * nat := init_node p cs None h.
Definition set_loc_obj (n : nat) (l : option sloc) (h : heap) : heap * nat := (set_loc_h n l h, n).
Definition build_heap (E : penv) (C : pcfg) (t : ptree) (h : heap) : res (nat * heap) :=
  run_builder new_obj set_loc_obj E C t h.
