(** The parser ends, whatever the tokens are. *)
From Verif Require Import Base LexRules Lexer Grammar Antlr Parser GenParser Atn AllStar AllStarFacts AllStarLoop AllStarNet GenFacts Recover RecoverPred.
Local Open Scope Z_scope.

(** ** A static bound *)
Definition alt_ok (s : Z) (t : ttype) : bool := next_has parser_atn s t || next_eps parser_atn s.
Definition expected_eof (n : Z) : bool := next_has parser_atn n EOF || next_eps parser_atn n.
Definition passes (n : Z) (G : list ttype) : bool := forallb (fun t => next_has parser_atn n t || next_eps parser_atn n) G.
Definition empty (G : list ttype) : bool := match G with [] => true | _ => false end.
Definition cost := (nat * bool * bool)%type.
Definition all_costs (l : list (option cost)) : option cost :=
  fold_right (fun x r => match x, r with Some (n, c, e), Some (n', c', e') => Some (Nat.max n n', c && c', e && e') | _, _ => None end) (Some (O, true, true)) l.
Fixpoint need (k : nat) (G : list ttype) (x : stm) : option cost :=
  match k with
  | O => None
  | S k =>
    match x with
    | Match _ t => let ok := forallb (ttype_eqb t) G && negb (ttype_eqb t EOF) in Some (1%nat, ok, ok)
    | MatchSet _ x _ => let ok := forallb (la_test x) G && negb (la_test x EOF) in Some (1%nat, ok, ok)
    | Call _ r => match need k G (method r) with Some (n, c, e) => Some (S n, c && (e || negb (existsb (ttype_eqb EOF) G)), true) | None => None end
    | Seq a b =>
        match need k G a with
        | Some (n, true, e) => Some (S n, true, e)
        | Some (n, false, e) => match need k G b with Some (n', c', e') => Some (S (Nat.max n n'), c', e && e') | None => None end
        | None => None
        end
    | Switch m cases =>
        match all_costs (map (fun q => let G' := filter (la_test (fst q)) G in if empty G' then Some (O, true, true) else need k G' (snd q)) cases) with
        | Some (n, c, e) => Some (S n, c, e && passes m G && forallb (fun t => existsb (fun q => la_test (fst q) t) cases) G)
        | None => None
        end
    | IfLa m x b =>
        let G' := filter (la_test x) G in
        if empty G' then Some (1%nat, empty G, passes m G)
        else match need k G' b with Some (n, c, e) => Some (S n, c && forallb (la_test x) G, e && passes m G) | None => None end
    | Pred m d l =>
        if Nat.eqb (length l) (length (alternatives parser_atn d)) then
          match all_costs (map (fun q => let G' := filter (alt_ok (fst q)) G in if empty G' then Some (O, true, true) else need k G' (snd q)) (combine (alternatives parser_atn d) l)) with
          | Some (n, c, e) => Some (S n, c, false)
          | None => None
          end
        else None
    | PredOpt m d b =>
        let G' := filter (alt_ok (hd 0 (alternatives parser_atn d))) G in
        if empty G' then Some (1%nat, false, false)
        else match need k G' b with Some (n, _, _) => Some (S n, false, false) | None => None end
    | DoLa m b m' x => match need k G (LoopLa b m' x) with Some (n, c, e) => Some (S n, c, e && passes m G) | None => None end
    | DoPred m b m' d => match need k G (LoopPred b m' d) with Some (n, c, e) => Some (S n, c, e && passes m G) | None => None end
    | LoopLa b m x =>
        match need k G b with
        | Some (n, true, e) => Some (S n, true, e)
        | Some (n, false, _) =>
            match need k (filter (la_test x) all_ttypes) b with Some (n', true, _) => Some (S (Nat.max n (S n')), false, false) | _ => None end
        | None => None
        end
    | LoopPred b m d =>
        match need k G b with
        | Some (n, true, e) => Some (S n, true, e)
        | Some (n, false, _) =>
            match need k (filter (alt_ok (hd 0 (alternatives parser_atn d))) all_ttypes) b with Some (n', true, _) => Some (S (Nat.max n (S n')), false, false) | _ => None end
        | None => None
        end
    end
  end.

Fixpoint labels (x : stm) : list Z :=
  match x with
  | Match n _ | MatchSet n _ _ => [n]
  | Call _ _ => []
  | Seq a b => labels a ++ labels b
  | Switch n l => n :: flat_map (fun q => labels (snd q)) l
  | IfLa n _ b | PredOpt n _ b => n :: labels b
  | Pred n _ l => n :: flat_map labels l
  | DoLa n b m _ | DoPred n b m _ => n :: m :: labels b
  | LoopLa b m _ | LoopPred b m _ => m :: labels b
  end.
(** The states in which an exception can be raised. *)
Definition ns : list Z := flat_map (fun r => labels (method r)) rule_names.
Definition ns_len : nat := length ns.
Definition bnd : nat := 24.
Definition chk (x : stm) : bool := match need 60 all_ttypes x with Some (n, _, _) => Nat.leb n bnd | None => false end.
Definition mem (n : Z) : bool := existsb (Z.eqb n) ns.
Definition not_query (r : rule) : bool := match r with query => false | _ => true end.
Fixpoint good (x : stm) : bool :=
  chk x &&
  match x with
  | Match n t => negb (ttype_eqb t EOF) && negb (expected_eof n) && mem n
  | MatchSet n x _ => negb (la_test x EOF) && negb (expected_eof n) && mem n
  | Call _ r => not_query r
  | Seq a b => good a && good b
  | Switch n l => mem n && forallb (fun q => good (snd q)) l
  | IfLa n _ b => mem n && good b
  | PredOpt n d b => mem n && good b
  | Pred n _ l => mem n && forallb good l
  | DoLa n b m x => mem n && mem m && chk (LoopLa b m x) && good b
  | DoPred n b m d => mem n && mem m && chk (LoopPred b m d) && good b
  | LoopLa b m _ => mem m && good b
  | LoopPred b m _ => mem m && good b
  end.
Lemma good_methods : forallb (fun r => negb (not_query r) || good (method r)) rule_names = true.
Proof. vm_compute. reflexivity. Qed.
Lemma good_query : good (Call 46 main_query) = true /\ good (IfLa 49 (la 18) (Seq (Match 47 WITHIN) (Call 48 within_part))) = true.
Proof. split; vm_compute; reflexivity. Qed.
