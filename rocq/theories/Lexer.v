(** ANTLR's lexer run on FCSLexer.g4 (antlr4 Lexer.nextToken,
    LexerATNSimulator.match/execATN/failOrAccept, Lexer.recover), as driven by
    [FCSLexer(InputStream(query))], parser.py:1716-1718. *)
From Coq Require Import String.
From Verif Require Import Base Regex LexRules.

Definition rules := list (ttype * regex).

(** All rules after reading [c]; dead rules are dropped
    (LexerATNSimulator.getReachableConfigSet). *)
Definition advance (c : N) (rs : rules) : rules :=
  filter (fun p => negb (void (snd p))) (map (fun p => (fst p, deriv c (snd p))) rs).

(** First rule in a stop state (LexerATNSimulator.addDFAState: the first
    configuration in a rule stop state determines the prediction). *)
Definition accepting (rs : rules) : option ttype :=
  match find (fun p => nullable (snd p)) rs with Some p => Some (fst p) | None => None end.

(** LexerATNSimulator.execATN: read characters while some rule is alive,
    remembering the last accept.  Result: last accept (type, length) and the
    number of characters read when the simulation stopped. *)
Fixpoint exec_atn (rs : rules) (s : pystr) (n : nat) (prev : option (ttype * nat))
  : option (ttype * nat) * nat :=
  match s with
  | [] => (prev, n)
  | c :: s' =>
      match advance c rs with
      | [] => (prev, n)
      | rs' => exec_atn rs' s' (S n)
                 (match accepting rs' with Some ty => Some (ty, S n) | None => prev end)
      end
  end.

Record token := mkTok {
  t_type : ttype; t_text : pystr;
  t_start : Z; t_stop : Z;       (* offsets of first and last character *)
  t_line : Z; t_col : Z }.

(** What one round of the lexer yields. *)
Inductive lexeme :=
| LxTok (t : token)
| LxSkip (t : token)                              (* [Space -> skip], FCSLexer.g4:147-149 *)
| LxErr (start line col : Z) (text : pystr).      (* token recognition error *)

Definition lx_text (l : lexeme) : pystr :=
  match l with LxTok t | LxSkip t => t_text t | LxErr _ _ _ x => x end.

(** LexerATNSimulator.consume: line and column bookkeeping (LF ends a line). *)
Fixpoint advance_pos (line col : Z) (s : pystr) : Z * Z :=
  match s with
  | [] => (line, col)
  | c :: s' => if N.eqb c 10 then advance_pos (line + 1) 0 s' else advance_pos line (col + 1) s'
  end.

(** Lexer.nextToken until end of input.  A failed match has consumed the
    characters up to the offending one; Lexer.recover consumes that one too
    (unless at end of input), Lexer.notifyListeners quotes all of them. *)
Fixpoint lex_loop (fuel : nat) (pos line col : Z) (s : pystr) : list lexeme :=
  match fuel, s with
  | O, _ => []
  | _, [] => []
  | S fuel', _ :: _ =>
      match exec_atn lex_rules s O None with
      | (Some (ty, n), _) =>
          let txt := firstn n s in
          let t := mkTok ty txt pos (pos + Z.of_nat n - 1) line col in
          let lc := advance_pos line col txt in
          (match ty with Space => LxSkip t | _ => LxTok t end)
            :: lex_loop fuel' (pos + Z.of_nat n) (fst lc) (snd lc) (skipn n s)
      | (None, n) =>
          let txt := firstn (S n) s in
          let lc := advance_pos line col txt in
          LxErr pos line col txt
            :: lex_loop fuel' (pos + zlen txt) (fst lc) (snd lc) (skipn (S n) s)
      end
  end.

Definition lexemes (q : pystr) : list lexeme := lex_loop (length q) 0 1 0 q.

(** The EOF token (Lexer.emitEOF): start = len, stop = len - 1, text "<EOF>". *)
Definition eof_token (q : pystr) : token :=
  let lc := advance_pos 1 0 q in
  mkTok EOF (u "<EOF>") (zlen q) (zlen q - 1) (fst lc) (snd lc).

Definition lx_tokens (l : list lexeme) : list token :=
  flat_map (fun x => match x with LxTok t => [t] | _ => [] end) l.

(** The token stream seen by the parser (CommonTokenStream). *)
Definition tokens (q : pystr) : list token := lx_tokens (lexemes q) ++ [eof_token q].

(** Lexical errors: (start offset, line, column, text), in order. *)
Record lexerr := mkLexErr { le_start : Z; le_line : Z; le_col : Z; le_text : pystr }.
Definition lx_errors (l : list lexeme) : list lexerr :=
  flat_map (fun x => match x with LxErr s ln c t => [mkLexErr s ln c t] | _ => [] end) l.
Definition lex_errors (q : pystr) : list lexerr := lx_errors (lexemes q).
