(** The generated parser FCSParser.py, method by method. *)
From Verif Require Import Base LexRules Lexer Grammar Antlr.
Local Open Scope Z_scope.

(** Token types as numbers, FCSParser.py:146-171 (EOF = Token.EOF = -1). *)
Definition tnum (t : ttype) : Z :=
  match t with
  | EOF => -1
  | L_PAREN => 1 | R_PAREN => 2 | L_SQUARE_BRACKET => 3 | R_SQUARE_BRACKET => 4 | OR => 5 | AND => 6 | NOT => 7
  | FWD_SLASH => 8 | L_CURLY_BRACKET => 9 | R_CURLY_BRACKET => 10 | Q_ONE_OR_MORE => 11 | Q_ZERO_OR_MORE => 12
  | Q_ZERO_OR_ONE => 13 | Q_COMMA => 14 | OPERATOR_EQ => 15 | OPERATOR_NE => 16 | COLON => 17 | WITHIN => 18
  | SIMPLE_WITHIN_SCOPE => 19 | REGEXP_FLAGS => 20 | IDENTIFIER => 21 | INTEGER => 22 | REGEXP => 23
  | QUOTED_STRING => 24 | Space => 25
  end.

(** The single-token tests that occur in the code. *)
Inductive latest :=
| LaIn (l : list Z)     (* token in [..] ;  _la==a or _la==b *)
| LaMask (m : Z).       (* ((_la) & ~0x3f) == 0 and ((1 << _la) & m) != 0 *)
Definition la_test (x : latest) (t : ttype) : bool :=
  match x with
  | LaIn l => existsb (Z.eqb (tnum t)) l
  | LaMask m => ((Z.land (tnum t) (Z.lnot 63) =? 0) && negb (Z.land (Z.shiftl 1 (tnum t)) m =? 0))%bool
  end.

(** The statements that occur in the methods, each with the number that [self.state] gets in
    front of it.  [enterRule], [enterOuterAlt], [exitRule] and the handling of exceptions around
    the bodies are left out: they do nothing on token sequences without syntax errors. *)
Inductive stm :=
| Match (n : Z) (t : ttype)                              (* self.state = n; self.match(FCSParser.T) *)
| MatchSet (n : Z) (x : latest) (l : list ttype)         (* self.state = n; if not(..): recoverInline else: consume; l: the types that pass *)
| Call (n : Z) (r : rule)                                (* self.state = n; self.rule() *)
| Seq (a b : stm)
| Switch (n : Z) (cases : list (latest * stm))           (* self.state = n; sync; if token in ..: .. elif ..: .. else: raise NoViableAltException *)
| IfLa (n : Z) (x : latest) (s : stm)                    (* self.state = n; sync; if _la ..: s *)
| Pred (n : Z) (d : nat) (alts : list stm)               (* self.state = n; sync; la_ = adaptivePredict(.., d, ..); if la_ == 1: .. elif .. *)
| PredOpt (n : Z) (d : nat) (s : stm)                    (* self.state = n; sync; la_ = adaptivePredict(.., d, ..); if la_ == 1: s *)
| DoLa (n : Z) (s : stm) (m : Z) (x : latest)            (* self.state = n; sync; while True: s; self.state = m; sync; if not (_la ..): break *)
| DoPred (n : Z) (s : stm) (m : Z) (d : nat)             (* self.state = n; sync; _alt = 1; while _alt == 1: s; self.state = m; sync; _alt = adaptivePredict(.., d, ..) *)
| LoopLa (s : stm) (m : Z) (x : latest)                  (* the two loops, once they are entered *)
| LoopPred (s : stm) (m : Z) (d : nat).
Definition la (n : Z) : latest := LaIn [n].

(** The rule methods. *)
Definition method (r : rule) : stm :=
  match r with
  | query => (* 223-251 *)
      Seq (Call 46 main_query) (Seq (IfLa 49 (la 18) (Seq (Match 47 WITHIN) (Call 48 within_part))) (Match 51 EOF))
  | main_query => (* 296-335 *)
      Pred 57 1 [Call 53 query_simple; Call 54 query_group; Call 55 query_sequence; Call 56 query_disjunction]
  | query_disjunction => (* 392-456 *)
      Seq (Pred 62 2 [Call 59 query_simple; Call 60 query_sequence; Call 61 query_group])
          (DoLa 70 (Seq (Match 64 OR) (Pred 68 3 [Call 65 query_simple; Call 66 query_sequence; Call 67 query_group])) 72 (la 5))
  | query_sequence => (* 499-538 *)
      DoLa 76 (Switch 76 [(LaIn [3; 23], Call 74 query_simple); (la 1, Call 75 query_group)]) 78 (LaMask 8388618)
  | query_group => (* 584-625 *)
      Seq (Match 80 L_PAREN) (Seq (Pred 83 7 [Call 81 query_disjunction; Call 82 query_sequence])
        (Seq (Match 85 R_PAREN) (IfLa 87 (LaMask 14848) (Call 86 quantifier))))
  | query_simple => (* 665-702 *)
      Seq (Switch 91 [(la 23, Call 89 query_implicit); (la 3, Call 90 query_segment)]) (IfLa 94 (LaMask 14848) (Call 93 quantifier))
  | quantifier => (* 754-832 *)
      Switch 114 [(la 11, Match 96 Q_ONE_OR_MORE); (la 12, Match 97 Q_ZERO_OR_MORE); (la 13, Match 98 Q_ZERO_OR_ONE);
              (la 9, Seq (Match 99 L_CURLY_BRACKET)
                (Seq (Pred 111 13 [Match 100 INTEGER;
                               Seq (IfLa 102 (la 22) (Match 101 INTEGER)) (Seq (Match 104 Q_COMMA) (Match 105 INTEGER));
                               Seq (Match 106 INTEGER) (Seq (Match 107 Q_COMMA) (IfLa 109 (la 22) (Match 108 INTEGER)))])
                     (Match 113 R_CURLY_BRACKET)))]
  | query_implicit => (* 864-880 *) Call 116 regexp
  | query_segment => (* 918-943 *)
      Seq (Match 118 L_SQUARE_BRACKET) (Seq (IfLa 120 (LaMask 3932290) (Call 119 expression)) (Match 122 R_SQUARE_BRACKET))
  | within_part => (* 977-993 *) Call 124 within_part_simple
  | within_part_simple => (* 1024-1040 *) Match 126 SIMPLE_WITHIN_SCOPE
  | expression => (* 1088-1135 *)
      Pred 133 16 [Call 128 expression_basic; Call 129 expression_group; Call 130 expression_or; Call 131 expression_and; Call 132 expression_not]
  | expression_or => (* 1197-1274 *)
      Seq (Pred 139 17 [Call 135 expression_basic; Call 136 expression_group; Call 137 expression_and; Call 138 expression_not])
          (DoPred 148 (Seq (Match 141 OR) (Pred 146 18 [Call 142 expression_basic; Call 143 expression_group; Call 144 expression_and; Call 145 expression_not])) 150 19)
  | expression_and => (* 1335-1406 *)
      Seq (Switch 155 [(LaIn [18; 19; 20; 21], Call 152 expression_basic); (la 1, Call 153 expression_group); (la 7, Call 154 expression_not)])
          (DoPred 164 (Seq (Match 157 AND) (Pred 162 21 [Call 158 expression_basic; Call 159 expression_group; Call 160 expression_or; Call 161 expression_not])) 166 22)
  | expression_group => (* 1459-1506 *)
      Seq (Match 168 L_PAREN)
        (Seq (Pred 174 23 [Call 169 expression_basic; Call 170 expression_group; Call 171 expression_or; Call 172 expression_and; Call 173 expression_not])
             (Match 176 R_PAREN))
  | expression_not => (* 1557-1602 *)
      Seq (Match 178 NOT)
        (Pred 184 24 [Call 179 expression_basic; Call 180 expression_group; Call 181 expression_not; Call 182 expression_or; Call 183 expression_and])
  | expression_basic => (* 1644-1670 *)
      Seq (Call 186 attribute) (Seq (MatchSet 187 (LaIn [15; 16]) [OPERATOR_EQ; OPERATOR_NE]) (Call 188 regexp))
  | attribute => (* 1709-1736 *)
      Seq (PredOpt 193 25 (Seq (Call 190 qualifier) (Match 191 COLON))) (Call 195 identifier)
  | qualifier => (* 1775-1797 *) MatchSet 197 (LaMask 3932160) [IDENTIFIER; WITHIN; SIMPLE_WITHIN_SCOPE; REGEXP_FLAGS]
  | identifier => (* 1837-1859 *) MatchSet 199 (LaMask 3932160) [IDENTIFIER; WITHIN; SIMPLE_WITHIN_SCOPE; REGEXP_FLAGS]
  | regexp => (* 1898-1925 *)
      Seq (Call 201 regexp_pattern) (IfLa 204 (la 8) (Seq (Match 202 FWD_SLASH) (Call 203 regexp_flag)))
  | regexp_pattern => (* 1956-1972 *) Match 206 REGEXP
  | regexp_flag => (* 2003-2019 *) Match 208 REGEXP_FLAGS
  end.

(** The part of the grammar a statement implements. *)
Fixpoint alts (l : list ebnf) : ebnf :=
  match l with [] => Tk [] | [a] => a | a :: l' => Al a (alts l') end.
Fixpoint tr (s : stm) : ebnf :=
  match s with
  | Match _ t => Tk [t]
  | MatchSet _ _ l => Tk l
  | Call _ r => NT r
  | Seq a b => Sq (tr a) (tr b)
  | Switch _ cases => alts (map (fun c => tr (snd c)) cases)
  | IfLa _ _ s | PredOpt _ _ s => Op (tr s)
  | Pred _ _ l => alts (map tr l)
  | DoLa _ s _ _ | DoPred _ s _ _ | LoopLa s _ _ | LoopPred s _ _ => Pl (tr s)
  end.

(** Outcomes: the trees added to the current context and the remaining tokens; an error
    (reported to the error listeners); not enough fuel. *)
Inductive gres := GOk (x : list ptree) (rest : list token) | GErr | GFuel.

Section Run.
  (** [self._interp.adaptivePredict(self._input, d, self._ctx)]: decision number, the states in
      which the current rule and its callers were invoked (innermost first), the types of the
      remaining tokens. *)
  Variable predict : nat -> list Z -> list ttype -> option nat.
  (** [self._errHandler.sync(self)]: the state and the type of the next token; [false]: the token
      does not fit (an error is reported or raised). *)
  Variable sync : Z -> ttype -> bool.
  (** [self._input.LA(1)] *)
  Definition la1 (ts : list token) : ttype := match ts with k :: _ => t_type k | [] => EOF end.
  Definition types_of (ts : list token) : list ttype := map t_type ts.
  Definition then_ (x : gres) (k : list token -> gres) : gres :=
    match x with
    | GOk x r => match k r with GOk y r' => GOk (x ++ y) r' | e => e end
    | e => e
    end.
  Fixpoint run (fuel : nat) (s : stm) (c : list Z) (ts : list token) : gres :=
    match fuel with
    | O => GFuel
    | S f =>
        match s with
        | Match _ t =>
            match ts with
            | k :: r => if ttype_eqb (t_type k) t then GOk [Leaf k] r else GErr
            | [] => GErr
            end
        | MatchSet _ x _ =>
            match ts with
            | k :: r => if la_test x (t_type k) then GOk [Leaf k] r else GErr
            | [] => GErr
            end
        | Call n r => match run f (method r) (n :: c) ts with GOk ch rest => GOk [Node r ch] rest | e => e end
        | Seq a b => then_ (run f a c ts) (fun r => run f b c r)
        | Switch n cases =>
            if sync n (la1 ts) then
              match find (fun c => la_test (fst c) (la1 ts)) cases with
              | Some k => run f (snd k) c ts
              | None => GErr
              end
            else GErr
        | IfLa n x s => if sync n (la1 ts) then if la_test x (la1 ts) then run f s c ts else GOk [] ts else GErr
        | Pred n d l =>
            if sync n (la1 ts) then
              match predict d c (types_of ts) with
              | Some (S i) => match nth_error l i with Some s => run f s c ts | None => GOk [] ts end
              | Some O => GOk [] ts
              | None => GErr
              end
            else GErr
        | PredOpt n d s =>
            if sync n (la1 ts) then
              match predict d c (types_of ts) with
              | Some 1%nat => run f s c ts
              | Some _ => GOk [] ts
              | None => GErr
              end
            else GErr
        | DoLa n s m x => if sync n (la1 ts) then run f (LoopLa s m x) c ts else GErr
        | DoPred n s m d => if sync n (la1 ts) then run f (LoopPred s m d) c ts else GErr
        | LoopLa s m x =>
            then_ (run f s c ts) (fun r =>
              if sync m (la1 r) then if la_test x (la1 r) then run f (LoopLa s m x) c r else GOk [] r else GErr)
        | LoopPred s m d =>
            then_ (run f s c ts) (fun r =>
              if sync m (la1 r) then
                match predict d c (types_of r) with
                | Some 1%nat => run f (LoopPred s m d) c r
                | Some _ => GOk [] r
                | None => GErr
                end
              else GErr)
        end
    end.
  (** [parser.query()], parser.py:1729: invoked from outside, with an empty context. *)
  Definition gen_query (ts : list token) : gres :=
    match run (64 * S (length ts)) (method query) [] ts with GOk ch rest => GOk [Node query ch] rest | e => e end.
End Run.
