(** Property C52: the generated parser resolves the ambiguous grammar deterministically. *)
From Coq Require Import String.
From Verif Require Import Base Regex LexRules Lexer Grammar Antlr Ast Builder Parser LexSpec LexFacts GramSpec GramFacts BuilderFacts LevelFacts SelFacts GenParser Atn AtnNets GenNet GenFacts GenPredict PropsLex TreeFacts.
Local Open Scope Z_scope.

(** C52.  A token sequence of the grammar has exactly one tree chosen by least-viable-alternative
    prediction; it is a derivation of exactly these tokens, and it is the one the model works with. *)
Theorem C52_unique : forall ts, conforms ts ->
  exists t, selects (NT query) [] ts [t] [] /\ (forall x r, selects (NT query) [] ts x r -> x = [t] /\ r = []) /\
    parse_tree query t /\ leaves t = ts /\ antlr_query ts = Some t.
Proof.
  intros ts Hc. destruct (antlr_query_selects ts Hc) as (t & Ht & Hs & Hp & Hl). exists t. split; [exact Hs|]. split; [|auto].
  intros x r H. destruct (selects_det _ _ _ _ _ Hs _ _ H) as [<- <-]. auto.
Qed.

(** The code of FCSParser.py, method by method, is the grammar FCSParser.g4: same tokens, same
    sub-rules, same order of alternatives, same loops. *)
Theorem C52_methods : forall r, tr (method r) = body r.
Proof. exact method_body. Qed.

(** Every method follows the deserialised network of FCSParser.py: the state number that the
    code sets in front of a token, a sub-rule, a test or a prediction is the state of the
    network that has just these transitions, in this order, and the decision numbers handed to
    [adaptivePredict] are those of these states. *)
Theorem C52_states : forall r, exists v, placed (method r) (AtnFacts.nm parser_atn (start_of parser_atn (rule_num r))) v /\ stop_state parser_atn v.
Proof. exact method_placed. Qed.

(** Run with any prediction that returns the least alternative from which the network can read
    the rest of the input to its end, if there is one (and promises nothing otherwise), and any
    synchronisation that lets tokens pass that can come next, the methods build exactly that tree
    from every token sequence of the grammar; the single-token tests of the code thus never
    mislead. *)
Theorem C52_generated : forall p sy ts, predicts parser_atn p -> syncs parser_atn sy -> conforms ts ->
  exists t, antlr_query ts = Some t /\ gen_query p sy ts = GOk [t] [].
Proof. intros p sy ts Hp Hsy Hc. destruct (gen_conforms p sy Hp Hsy ts Hc) as (t & H1 & H2). eauto. Qed.

(** On other token sequences they do not succeed: never without consuming the input up to its
    EOF token, whatever prediction returns there. *)
Lemma query_last ch : derives (body query) ch -> exists l k, flat_map leaves ch = l ++ [k] /\ t_type k = EOF.
Proof.
  intros H. cbn [body] in H. inversion H as [| |a b x y H1 H2| | | | | | |]; subst. inversion H2 as [| |a b x' y' H3 H4| | | | | | |]; subst.
  inversion H4 as [l k Hin| | | | | | | | |]; subst. destruct Hin as [Hin|[]]. exists (flat_map leaves (x ++ x')), k. split; [|auto].
  rewrite app_assoc, flat_map_app. reflexivity.
Qed.
Theorem C52_rejects : forall p sy q, predicts parser_atn p -> syncs parser_atn sy -> ~ conforms (tokens q) -> gen_query p sy (tokens q) = GErr.
Proof.
  intros p sy q Hp Hsy Hn. destruct (gen_query p sy (tokens q)) as [x r| |] eqn:H; [exfalso|reflexivity|destruct (gen_fuel p sy Hp _ H)].
  destruct (gen_derives p sy Hp _ _ _ H) as (ch & -> & Hch & Hl).
  destruct (query_last ch Hch) as (l & k & Hlk & Hk). rewrite Hlk, <- app_assoc in Hl.
  destruct r as [|y r] using rev_ind.
  - apply Hn. exists (Node query ch). split; [constructor; exact Hch|]. rewrite Hl, app_nil_r. cbn [leaves]. exact Hlk.
  - rewrite !app_assoc in Hl. rewrite tokens_split in Hl. apply app_inj_tail in Hl. destruct Hl as [Hl _].
    destruct (C04_types q k) as (_ & _ & _ & He & _); [|contradiction]. rewrite Hl. apply in_or_app. left. apply in_or_app. right. left. reflexivity.
Qed.
(** It always ends, within a number of steps linear in the number of tokens. *)
Theorem C52_terminates : forall p sy ts, predicts parser_atn p -> gen_query p sy ts <> GFuel.
Proof. intros p sy ts Hp. apply gen_fuel. exact Hp. Qed.

(** ** Such a prediction exists, and such a synchronisation. *)
Example C52_predicts : predicts parser_atn predictor.
Proof. exact predictor_predicts. Qed.
Example C52_syncs : syncs parser_atn (fun _ _ => true).
Proof. intros n t _. reflexivity. Qed.

(** The grammar is ambiguous: ['a'] alone has two derivations; and the generated code run with that prediction takes the first. *)
Example C52_ambiguous : exists t1 t2, t1 <> t2 /\ parse_tree query t1 /\ parse_tree query t2 /\ leaves t1 = leaves t2 /\
  leaves t1 = tokens (u "'a'") /\ gen_query predictor (fun _ _ => true) (tokens (u "'a'")) = GOk [t1] [].
Proof.
  set (k := mkTok REGEXP (u "'a'") 0 2 1 0). set (e := eof_token (u "'a'")).
  set (s := Node query_simple [Node query_implicit [Node regexp [Node regexp_pattern [Leaf k]]]]).
  assert (Hs : derives (NT query_simple) [s]).
  { constructor. change [Node query_implicit [Node regexp [Node regexp_pattern [Leaf k]]]] with ([Node query_implicit [Node regexp [Node regexp_pattern [Leaf k]]]] ++ []).
    cbn [body]. apply d_sq; [apply d_al1; constructor; cbn [body]; constructor; cbn [body]|constructor].
    change [Node regexp_pattern [Leaf k]] with ([Node regexp_pattern [Leaf k]] ++ []). apply d_sq; [constructor; cbn [body]; constructor; left; reflexivity|constructor]. }
  assert (Hq : forall m, derives (NT main_query) [m] -> parse_tree query (Node query [m; Leaf e])).
  { intros m Hm. constructor. cbn [body]. change [m; Leaf e] with ([m] ++ [] ++ [Leaf e]). apply d_sq; [exact Hm|]. apply d_sq; [constructor|]. constructor. left. reflexivity. }
  exists (Node query [Node main_query [s]; Leaf e]), (Node query [Node main_query [Node query_sequence [s]]; Leaf e]).
  split; [discriminate|]. split; [|split; [|split; [|split]]].
  - apply Hq. constructor. cbn [body]. apply d_al1. exact Hs.
  - apply Hq. constructor. cbn [body]. apply d_al2. apply d_al2. apply d_al1. constructor. cbn [body].
    change [s] with ([s] ++ []). apply d_pl; [|constructor]. apply d_al1. exact Hs.
  - reflexivity.
  - vm_compute. reflexivity.
  - vm_compute. reflexivity.
Qed.
