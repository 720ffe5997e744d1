(** [QueryParser.parse] on the shared tables of Cache.v: lexer and parser as programs that ask for simulations. *)
From Coq Require Import String.
From Verif Require Import Base Regex LexRules Lexer Grammar Antlr Ast Builder Parser GenParser Atn AllStar ContextData Recover Cache.
Local Open Scope Z_scope.

(** The state contents: of the lexer's DFA, what is left of the rules; of the parser's DFAs, the
    configurations with the verdict of computeTargetState ([D.prediction] of an accept state, [D.requiresFullContext]). *)
Inductive verdict := Open | Unique (a : nat) | Conflict.
Inductive dstate := LexS (rs : rules) | ParS (ks : list conf) (v : verdict).
Inductive sym := Char (c : N) | Tok (t : ttype).
(** FCSLexer.decisionsToDFA[0] (the only mode), FCSParser.decisionsToDFA[d] *)
Inductive dname := LexD | ParD (d : nat).

Definition regex_dec (a b : regex) : {a = b} + {a <> b}.
Proof. repeat decide equality. Defined.
Definition conf_dec (a b : conf) : {a = b} + {a <> b}.
Proof. decide equality; [apply Bool.bool_dec|apply (list_eq_dec Z.eq_dec)|apply Nat.eq_dec|apply Z.eq_dec]. Defined.
Definition dstate_dec (a b : dstate) : {a = b} + {a <> b}.
Proof. decide equality; [apply list_eq_dec; decide equality; [apply regex_dec|apply ttype_eq_dec]|decide equality; apply Nat.eq_dec|apply list_eq_dec, conf_dec]. Defined.
Definition sym_dec (a b : sym) : {a = b} + {a <> b}.
Proof. decide equality; [apply N.eq_dec|apply ttype_eq_dec]. Defined.
Definition dname_dec (a b : dname) : {a = b} + {a <> b}.
Proof. decide equality; apply Nat.eq_dec. Defined.

(** computeStartState (LexerATNSimulator.computeStartState, ParserATNSimulator.computeStartState) *)
Definition dstart (d : dname) : dstate :=
  match d with LexD => LexS lex_rules | ParD d => ParS (collect (starts parser_atn false [] 1 (alternatives parser_atn d))) Open end.
(** computeTargetState *)
Definition dstep (s : dstate) (x : sym) : option dstate :=
  match s, x with
  | LexS rs, Char c => match advance c rs with [] => None | rs' => Some (LexS rs') end
  | ParS ks _, Tok t =>
      match reach_set parser_atn false ks (tnum t) with
      | [] => None
      | ks' => Some (ParS ks' match unique_alt ks' with Some a => Unique a | None => if sll_conflict parser_atn ks' then Conflict else Open end)
      end
  | _, _ => None
  end.
Definition dstop (s : dstate) : bool := match s with ParS _ Open | LexS _ => false | ParS _ _ => true end.
(** LexerATNSimulator.MIN_DFA_EDGE .. MAX_DFA_EDGE; -1 .. atn.maxTokenType *)
Definition dkeeps (x : sym) : bool := match x with Char c => (c <=? 127)%N | Tok _ => true end.

Notation dprog := (prog dstate sym dname).
Notation ret := (Ret dstate sym dname _).
Notation ask := (Ask dstate sym dname _).
Notation dwalk := (walk dstate sym dstep dstop).
Fixpoint bind {A B} (p : dprog A) (k : A -> dprog B) : dprog B :=
  match p with Ret _ _ _ _ r => k r | Ask _ _ _ _ d w j => Ask _ _ _ _ d w (fun a => bind (j a) k) end.
Notation evalp := (eval dstate sym dname _ dstart dstep dstop).

(** ** The lexer *)
(** [captureSimState] at every accept state passed. *)
Definition match_of (a : list dstate * ending) : option (ttype * nat) * nat :=
  fold_left (fun r s => (match s with LexS rs => match accepting rs with Some ty => Some (ty, S (snd r)) | None => fst r end | _ => fst r end, S (snd r))) (tl (fst a)) (None, O).
(** Lexer.nextToken until the end (as [lex_loop]). *)
Fixpoint lex_p (fuel : nat) (pos line col : Z) (s : pystr) : dprog (list lexeme) :=
  match fuel, s with
  | O, _ => ret []
  | _, [] => ret []
  | S fuel', _ :: _ =>
      ask LexD (map Char s) (fun a =>
      match match_of a with
      | (Some (ty, n), _) =>
          let txt := firstn n s in
          let t := mkTok ty txt pos (pos + Z.of_nat n - 1) line col in
          let lc := advance_pos line col txt in
          bind (lex_p fuel' (pos + Z.of_nat n) (fst lc) (snd lc) (skipn n s)) (fun l => ret ((match ty with Space => LxSkip t | _ => LxTok t end) :: l))
      | (None, n) =>
          let txt := firstn (S n) s in
          let lc := advance_pos line col txt in
          bind (lex_p fuel' (pos + zlen txt) (fst lc) (snd lc) (skipn (S n) s)) (fun l => ret (LxErr pos line col txt :: l))
      end)
  end.

(** ** Prediction *)
(** The answer of [adaptivePredict] after the simulation; a conflict is decided with full context, which uses no table. *)
Definition predicted (d : nat) (c : list Z) (w : list ttype) (a : list dstate * ending) : prediction :=
  let n := Nat.pred (length (fst a)) in
  match snd a, last (fst a) (LexS []) with
  | AtEnd, _ => NoViable n
  | Failed, ParS ks _ => no_viable parser_atn ks n
  | Stopped, ParS _ (Unique i) => Alt i
  | Stopped, _ => exec_full parser_atn (collect (starts parser_atn true (map (follow_of parser_atn) c) 1 (alternatives parser_atn d))) w 0
  | _, _ => NoViable n
  end.
(** How many tokens it has looked at. *)
Definition looked (d : nat) (c : list Z) (w : list ttype) (a : list dstate * ending) : nat :=
  let n := Nat.pred (length (fst a)) in
  match snd a, last (fst a) (LexS []) with
  | AtEnd, _ => n
  | Failed, _ => S n
  | Stopped, ParS _ (Unique i) => n
  | Stopped, _ => Nat.max (seen_full parser_atn (collect (starts parser_atn true (map (follow_of parser_atn) c) 1 (alternatives parser_atn d))) w) n
  end.

(** ** The parser: error reports (as [rrun]) *)
Definition sync_p (n : Z) (c : list Z) (s : pst) (k : pst -> dprog rres) : dprog rres :=
  if p_mode s then k s
  else if next_has parser_atn n (la1 (p_rest s)) || next_eps parser_atn n then k s
  else if existsb (Z.eqb (state_type parser_atn n)) [3; 4; 5; 10] then
    let '(s, deleted) := delete parser_atn n c s in if deleted then k s else ret (RExn s n EMismatch)
  else if existsb (Z.eqb (state_type parser_atn n)) [9; 11] then
    k (consume_until (fun t => expected parser_atn n c t || recovery_set parser_atn c t) (report_unwanted parser_atn n c s))
  else k s.
Definition predict_p (n : Z) (d : nat) (c : list Z) (s : pst) (k : nat -> pst -> dprog rres) : dprog rres :=
  let w := types_of (p_rest s) in
  ask (ParD d) (map Tok w) (fun a =>
    let s := fetch (looked d c w a) s in
    match predicted d c w a with Alt i => k i s | NoViable j => ret (RExn s n (ENoViable j)) end).
Definition rthen_p (x : dprog rres) (k : pst -> dprog rres) : dprog rres := bind x (fun x => match x with RNormal s => k s | e => ret e end).
Definition caught_p (c : list Z) (x : dprog rres) : dprog rres := bind x (fun x => ret (caught parser_atn c x)).
Fixpoint rrun_p (fuel : nat) (x : stm) (c : list Z) (s : pst) : dprog rres :=
  match fuel with
  | O => ret RFuel
  | S f =>
      match x with
      | Match n t => ret (if ttype_eqb (la1 (p_rest s)) t then RNormal (consume (report_match s)) else recover_inline parser_atn n c s)
      | MatchSet n x _ => ret (if la_test x (la1 (p_rest s)) then RNormal (consume (report_match s)) else recover_inline parser_atn n c s)
      | Call n r => caught_p (n :: c) (rrun_p f (method r) (n :: c) s)
      | Seq a b => rthen_p (rrun_p f a c s) (rrun_p f b c)
      | Switch n cases =>
          sync_p n c s (fun s =>
            match find (fun k => la_test (fst k) (la1 (p_rest s))) cases with
            | Some k => rrun_p f (snd k) c s
            | None => ret (RExn s n (ENoViable 0))
            end)
      | IfLa n x b => sync_p n c s (fun s => if la_test x (la1 (p_rest s)) then rrun_p f b c s else ret (RNormal s))
      | Pred n d l =>
          sync_p n c s (fun s => predict_p n d c s (fun i s =>
            match i with
            | S j => match nth_error l j with Some b => rrun_p f b c s | None => ret (RNormal s) end
            | O => ret (RNormal s)
            end))
      | PredOpt n d b => sync_p n c s (fun s => predict_p n d c s (fun i s => if Nat.eqb i 1 then rrun_p f b c s else ret (RNormal s)))
      | DoLa n b m x => sync_p n c s (rrun_p f (LoopLa b m x) c)
      | DoPred n b m d => sync_p n c s (rrun_p f (LoopPred b m d) c)
      | LoopLa b m x =>
          rthen_p (rrun_p f b c s) (fun s => sync_p m c s (fun s =>
            if la_test x (la1 (p_rest s)) then rrun_p f (LoopLa b m x) c s else ret (RNormal s)))
      | LoopPred b m d =>
          rthen_p (rrun_p f b c s) (fun s => sync_p m c s (fun s => predict_p m d c s (fun i s =>
            if Nat.eqb i 1 then rrun_p f (LoopPred b m d) c s else ret (RNormal s))))
      end
  end.
Definition calls_p (ts : list token) : dprog (list (nat * lcall)) :=
  bind (caught_p [] (rrun_p (2048 * S (length ts)) (method query) [] (rstart ts)))
    (fun r => ret (match r with RNormal s => rev (p_calls s) | _ => [] end)).

(** ** The parser: the parse tree when there is no error (as [run]; the methods run once in the program, twice here) *)
Definition gen_predict (d : nat) (c : list Z) (ts : list token) (k : option nat -> dprog gres) : dprog gres :=
  ask (ParD d) (map Tok (types_of ts)) (fun a => k (match predicted d c (types_of ts) a with Alt i => Some i | NoViable _ => None end)).
Definition gthen (x : dprog gres) (k : list token -> dprog gres) : dprog gres :=
  bind x (fun x => match x with GOk x r => bind (k r) (fun y => ret (match y with GOk y r' => GOk (x ++ y) r' | e => e end)) | e => ret e end).
Fixpoint run_p (fuel : nat) (s : stm) (c : list Z) (ts : list token) : dprog gres :=
  match fuel with
  | O => ret GFuel
  | S f =>
      let sync := sync_passes parser_atn in
      match s with
      | Match _ t => ret (match ts with k :: r => if ttype_eqb (t_type k) t then GOk [Leaf k] r else GErr | [] => GErr end)
      | MatchSet _ x _ => ret (match ts with k :: r => if la_test x (t_type k) then GOk [Leaf k] r else GErr | [] => GErr end)
      | Call n r => bind (run_p f (method r) (n :: c) ts) (fun x => ret (match x with GOk ch rest => GOk [Node r ch] rest | e => e end))
      | Seq a b => gthen (run_p f a c ts) (fun r => run_p f b c r)
      | Switch n cases =>
          if sync n (la1 ts) then
            match find (fun c => la_test (fst c) (la1 ts)) cases with Some k => run_p f (snd k) c ts | None => ret GErr end
          else ret GErr
      | IfLa n x s => if sync n (la1 ts) then if la_test x (la1 ts) then run_p f s c ts else ret (GOk [] ts) else ret GErr
      | Pred n d l =>
          if sync n (la1 ts) then
            gen_predict d c ts (fun i => match i with
              | Some (S i) => match nth_error l i with Some s => run_p f s c ts | None => ret (GOk [] ts) end
              | Some O => ret (GOk [] ts)
              | None => ret GErr
              end)
          else ret GErr
      | PredOpt n d s =>
          if sync n (la1 ts) then
            gen_predict d c ts (fun i => match i with Some 1%nat => run_p f s c ts | Some _ => ret (GOk [] ts) | None => ret GErr end)
          else ret GErr
      | DoLa n s m x => if sync n (la1 ts) then run_p f (LoopLa s m x) c ts else ret GErr
      | DoPred n s m d => if sync n (la1 ts) then run_p f (LoopPred s m d) c ts else ret GErr
      | LoopLa s m x =>
          gthen (run_p f s c ts) (fun r =>
            if sync m (la1 r) then if la_test x (la1 r) then run_p f (LoopLa s m x) c r else ret (GOk [] r) else ret GErr)
      | LoopPred s m d =>
          gthen (run_p f s c ts) (fun r =>
            if sync m (la1 r) then
              gen_predict d c r (fun i => match i with Some 1%nat => run_p f (LoopPred s m d) c r | Some _ => ret (GOk [] r) | None => ret GErr end)
            else ret GErr)
      end
  end.
Definition gen_p (ts : list token) : dprog gres :=
  bind (run_p (64 * S (length ts)) (method query) [] ts) (fun r => ret (match r with GOk ch rest => GOk [Node query ch] rest | e => e end)).

(** ** [QueryParser.parse], parser.py:1700-1756: [.errors] afterwards, and the result *)
Definition parse_p (E : penv) (P : qparser) (q : pystr) : dprog (list error_detail * res qnode) :=
  bind (lex_p (length q) 0 1 0 q) (fun ls =>
  let ts := lx_tokens ls ++ [eof_token q] in
  bind (calls_p ts) (fun calls =>
  match map (syntaxError q) (interleave ts calls (lx_errors ls)) with
  | [] =>
      bind (gen_p ts) (fun g => ret ([], handle match g with
        | GOk [t] _ => build_tree E (qp_cfg P) t
        | _ => Raise (QueryParserError (u "unable to parse query: ?"))
        end))
  | (e :: _) as es => ret (es, handle (Raise (QueryParserError (u "unable to parse query: " ++ ed_message e))))
  end)).

(** ** Threads that parse: what can happen in a process *)
Inductive pevent := PStart (P : qparser) (q : pystr) | PStep (i : nat) | PKill (i : nat).
Definition to_event (E : penv) (e : pevent) : event dstate sym dname (list error_detail * res qnode) :=
  match e with PStart P q => EStart _ _ _ _ (parse_p E P q) | PStep i => EStep _ _ _ _ i | PKill i => EKill _ _ _ _ i end.
Definition process (E : penv) (l : list pevent) : list (thread dstate sym dname (list error_detail * res qnode)) :=
  w_threads _ _ _ _ (history dstate sym dname _ dstate_dec sym_dec dname_dec dstart dstep dstop dkeeps (map (to_event E) l)).
