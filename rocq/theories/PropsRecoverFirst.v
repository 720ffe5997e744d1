(** Property C65: what the first syntax error says. *)
From Coq Require Import String Sorting.Sorted.
From Verif Require Import Base Regex LexRules Lexer Grammar Antlr Ast Builder Parser LexSpec LexFacts LexThms GramSpec GramFacts GenParser Atn AtnFacts AtnNets GenNet GenFacts ParseSpec PropsParse PropsErrors AllStar AllStarLoop AllStarNet PropsAllStar
  ContextData Recover RecoverPred RecoverNeed RecoverTerm RecoverInv RecoverSim RecoverComp RecoverView RecoverFirst PropsRecover ErrorSpec.
Local Open Scope Z_scope.
Opaque parser_atn expected.

Lemma prefix_beginning l w : prefix l w -> beginning (map t_type l ++ w).
Proof.
  intros (z & fs & Hd & E). inversion Hd as [|? ? x y Hx Hy]; subst. inversion Hy; subst. inversion Hx as [|? ch Hc| | | | | | | |]; subst. exists (leaves (Node query ch)), z. split.
  - exists (Node query ch). split; [exact Hx|reflexivity].
  - cbn [app flat_map] in E. rewrite app_nil_r in E. rewrite E. unfold types_of. rewrite app_assoc. reflexivity.
Qed.
Lemma names_agree t : element_name t = u (token_name t).
Proof. destruct t; vm_compute; reflexivity. Qed.
Lemma comma_items l t : exists s, items l s /\ comma_sep (map element_name (t :: l)) = u (token_name t) ++ s.
Proof.
  revert t. induction l as [|x l IH]; intros t.
  - exists []. split; [constructor|]. cbn [map comma_sep]. rewrite names_agree, app_nil_r. reflexivity.
  - destruct (IH x) as (s & Hs & E). exists (u ", " ++ u (token_name x) ++ s). split; [constructor; exact Hs|]. cbn [map] in *. cbn [comma_sep] in *. rewrite E, names_agree. reflexivity.
Qed.
Lemma comma_one t : comma_sep (map element_name [t]) = u (token_name t).
Proof. cbn [map comma_sep]. apply names_agree. Qed.
Lemma order_sorted : StronglySorted (fun a b => tnum a < tnum b) types_in_order.
Proof. unfold types_in_order. repeat (constructor; [|repeat (constructor; [cbn; lia|]); constructor]). constructor. Qed.
Lemma types_all t : In t types_in_order. Proof. destruct t; cbn; tauto. Qed.
Transparent set_text.
Lemma set_text_eq p : set_text p = match filter p types_in_order with _ :: _ :: _ => u "{" ++ comma_sep (map element_name (filter p types_in_order)) ++ u "}" | _ => comma_sep (map element_name (filter p types_in_order)) end.
Proof. reflexivity. Qed.
Opaque set_text comma_sep element_name types_in_order token_name u.
Lemma set_listed p : (exists y, p y = true) -> exists S, S <> [] /\ in_order S /\ (forall x, In x S <-> p x = true) /\ listed S (set_text p).
Proof.
  intros (y & Hy). exists (filter p types_in_order). assert (HI : forall x, In x (filter p types_in_order) <-> p x = true) by (intros x; rewrite filter_In; split; [tauto|intros H; split; [apply types_all|exact H]]).
  split; [intros E; apply HI in Hy; rewrite E in Hy; destruct Hy|]. split; [apply sorted_filter; apply order_sorted|]. split; [exact HI|].
  rewrite set_text_eq. apply HI in Hy. clear HI. destruct (filter p types_in_order) as [|a [|b l]]; [destruct Hy| |].
  - rewrite comma_one. constructor.
  - destruct (comma_items (b :: l) a) as (s & Hs & E). rewrite E, <- app_assoc. constructor; [discriminate|exact Hs].
Qed.
Transparent comma_sep element_name types_in_order token_name u.
(** The tokens whose texts a no-viable-alternative message shows: up to the offending one, the end of the input left out. *)
Lemma before_eof_spec l t tail : to_eof (types_of (l ++ t :: tail)) -> before_eof (l ++ [t]) = match t_type t with EOF => l | _ => l ++ [t] end.
Proof.
  intros H. assert (Hn : ~ In EOF (types_of l)) by (apply (pre_eof l (t :: tail)); [exact H|discriminate]).
  destruct (ttype_eq_dec (t_type t) EOF) as [E|E].
  - rewrite E. clear H. induction l as [|x l IH]; cbn [app]; [cbn; rewrite E; reflexivity|]. change (before_eof (x :: l ++ [t])) with (match t_type x with EOF => [] | _ => x :: before_eof (l ++ [t]) end). rewrite IH by (intros Hi; apply Hn; right; exact Hi). destruct (t_type x) eqn:Ex; try reflexivity. destruct Hn. left. exact Ex.
  - rewrite before_eof_all; [destruct (t_type t); congruence|]. unfold types_of in *. rewrite map_app. intros Hi. apply in_app_or in Hi. destruct Hi as [Hi|[Hi|[]]]; auto.
Qed.

Lemma msg1 : u "mismatched input '" = u "mismatched input " ++ u "'". Proof. reflexivity. Qed.
Lemma msg2 : u "extraneous input '" = u "extraneous input " ++ u "'". Proof. reflexivity. Qed.
Lemma q1 : u "' expecting " = u "'" ++ u " expecting ". Proof. reflexivity. Qed.
Lemma msg3 : u " at '" = u " at " ++ u "'". Proof. reflexivity. Qed.
Lemma msg4 : u "no viable alternative at input '" = u "no viable alternative at input " ++ u "'". Proof. reflexivity. Qed.
(** ** C65 *)
(** The first error of the parser on a query: in front of a token [t] all is well (the tokens before it begin a valid query), and either
    - the message is about [t] and lists token types, with each of which the query could have gone on, [t]'s not being one of them, or
    - the parser found no way to go on from [t]: the message shows the text from [t] to the offending token [t'], all tokens before which
      begin a valid query. *)
Theorem C65_place : forall q k c l, parser_calls (tokens q) = (k, c) :: l ->
  exists before t after, tokens q = before ++ t :: after /\ beginning (map t_type before) /\
  ((exists S s d, S <> [] /\ in_order S /\ ~ In (t_type t) S /\ (forall x, In x S -> beginning (map t_type before ++ [x])) /\
      lc_token c = Some t /\ lc_line c = t_line t /\ lc_column c = t_col t /\ listed S s /\ displayed (t_text t) d /\
      (lc_msg c = u "mismatched input '" ++ d ++ u "' expecting " ++ s \/
       lc_msg c = u "extraneous input '" ++ d ++ u "' expecting " ++ s \/
       lc_msg c = u "missing " ++ s ++ u " at '" ++ d ++ u "'")) \/
   (exists mid t' tail d, t :: after = mid ++ t' :: tail /\ beginning (map t_type (before ++ mid)) /\ lc_token c = Some t' /\ lc_line c = t_line t' /\ lc_column c = t_col t' /\
      displayed (if ttype_eq_dec (t_type t) EOF then u "<EOF>" else concat (map t_text mid) ++ (if ttype_eq_dec (t_type t') EOF then [] else t_text t')) d /\
      lc_msg c = u "no viable alternative at input '" ++ d ++ u "'")).
Proof.
  intros q k c l H. destruct (recovered q) as (s & Hs & E & _). rewrite E in H. destruct (query_first (tokens q) s (tokens_eof q) Hs) as [Hn|(l0 & x & Ec & HO)]; [rewrite Hn in H; discriminate|].
  rewrite Ec, rev_app_distr in H. cbn [rev app] in H. injection H as -> _.
  assert (Hp : forall t, lc_token c = Some t -> lc_line c = t_line t /\ lc_column c = t_col t).
  { intros t Ht. destruct (C64_tokens q k c) as (t0 & _ & E1 & E2 & E3); [rewrite E, Ec, rev_app_distr; left; reflexivity|]. rewrite Ht in E1. injection E1 as ->. auto. }
  destruct HO as (before & t & after & Et & Hb & HO). cbn [snd] in HO. exists before, t, after. split; [exact Et|]. split; [rewrite <- (app_nil_r (map t_type before)); apply prefix_beginning; exact Hb|]. destruct HO as [(p & H1 & H2 & H3 & H4 & H5)|(mid & t' & tail & H1 & H1' & H2 & H3)].
  - left. destruct (set_listed p H3) as (S & HS & Ho & HI & HL). exists S, (set_text p), (error_display (t_text t)). split; [exact HS|]. split; [exact Ho|]. split; [intros Hi; apply HI in Hi; congruence|]. split; [intros x Hx; apply prefix_beginning; apply H4; apply HI; exact Hx|].
    split; [exact H1|]. destruct (Hp t H1) as [P1 P2]. split; [exact P1|]. split; [exact P2|]. split; [exact HL|]. split; [apply error_display_shows|]. unfold expecting, quoted in H5. destruct H5 as [<-|[<-|[<-|[]]]].
    + left. rewrite msg1, q1, <- !app_assoc. reflexivity.
    + right. left. rewrite msg2, q1, <- !app_assoc. reflexivity.
    + right. right. rewrite msg3, <- !app_assoc. reflexivity.
  - right. assert (HT : to_eof (types_of (mid ++ t' :: tail))). { pose proof (tokens_eof q) as HQ. rewrite Et, H1 in HQ. clear -HQ. induction before as [|x b IH]; [exact HQ|]. cbn [app types_of map] in HQ. apply to_eof_cons in HQ. apply IH. apply HQ. destruct b; [destruct mid; discriminate|discriminate]. }
    exists mid, t', tail, (error_display (if ttype_eq_dec (t_type t) EOF then u "<EOF>" else concat (map t_text mid) ++ (if ttype_eq_dec (t_type t') EOF then [] else t_text t'))).
    split; [exact H1|]. split; [rewrite map_app; apply prefix_beginning; exact H1'|]. split; [exact H2|]. destruct (Hp t' H2) as [P1 P2]. split; [exact P1|]. split; [exact P2|]. split; [apply error_display_shows|]. rewrite H3. unfold quoted. rewrite (before_eof_spec mid t' tail HT).
    assert (EQ : match t_type t with EOF => u "<EOF>" | _ => concat (map t_text (match t_type t' with EOF => mid | _ => mid ++ [t'] end)) end = (if ttype_eq_dec (t_type t) EOF then u "<EOF>" else concat (map t_text mid) ++ (if ttype_eq_dec (t_type t') EOF then [] else t_text t'))).
    { assert (EM : concat (map t_text (match t_type t' with EOF => mid | _ => mid ++ [t'] end)) = concat (map t_text mid) ++ (if ttype_eq_dec (t_type t') EOF then [] else t_text t')).
      { destruct (ttype_eq_dec (t_type t') EOF) as [E'|E']; [rewrite E', app_nil_r; reflexivity|]. rewrite <- (app_nil_r (t_text t')). change (t_text t' ++ []) with (concat (map t_text [t'])). rewrite <- concat_app, <- map_app. destruct (t_type t'); congruence. }
      rewrite <- EM. destruct (ttype_eq_dec (t_type t) EOF) as [E'|E']; [rewrite E'; reflexivity|]. destruct (t_type t); congruence. }
    rewrite EQ, msg4, <- app_assoc. reflexivity.
Qed.
(** Without lexical errors, that is what the exception of [parse] says. *)
Theorem C65_parse : forall E P q, lex_errors q = [] -> ~ conforms (tokens q) ->
  exists k c l, parser_calls (tokens q) = (k, c) :: l /\ parse (antlr_env E) P q = Raise (QueryParserError (u "unable to parse query: " ++ lc_msg c)).
Proof.
  intros E P q HL HC. destruct (parser_calls (tokens q)) as [|[k c] l] eqn:Ec; [destruct HC; apply C64_reports; exact Ec|]. exists k, c, l. split; [reflexivity|].
  apply (C64_message E P q c (map snd l)). unfold antlr_calls. rewrite Ec, HL. cbn [interleave map filter app]. f_equal.
  assert (HN : forall calls, interleave (tokens q) calls [] = map snd calls). { induction calls as [|[k' c'] calls IH]; [reflexivity|]. cbn [interleave filter map app snd]. rewrite IH. reflexivity. }
  apply HN.
Qed.
Lemma beginning_shorter a b : beginning (a ++ b) -> beginning a.
Proof. intros (ts & z & H & E). exists ts, (b ++ z). split; [exact H|]. rewrite E, app_assoc. reflexivity. Qed.
Lemma not_behind before t after good wrong rest : before ++ t :: after = good ++ wrong :: rest -> beginning (map t_type before) -> ~ beginning (map t_type (good ++ [wrong])) -> (List.length before <= List.length good)%nat /\ In t (good ++ [wrong]).
Proof.
  intros E Hb HB. assert (Hlen : (List.length before <= List.length good)%nat).
  { destruct (Nat.le_gt_cases (List.length before) (List.length good)) as [|Hgt]; [assumption|]. exfalso. apply HB. assert (Em : exists m, before = (good ++ [wrong]) ++ m).
    { exists (skipn (S (List.length good)) before). rewrite <- (firstn_skipn (S (List.length good)) before) at 1. f_equal. transitivity (firstn (S (List.length good)) (before ++ t :: after)); [rewrite firstn_app; replace (S (List.length good) - List.length before)%nat with O by lia; cbn [firstn]; rewrite app_nil_r; reflexivity|].
      rewrite E. rewrite firstn_app. replace (S (List.length good) - List.length good)%nat with 1%nat by lia. rewrite firstn_all2 by lia. reflexivity. }
    destruct Em as (m & ->). rewrite map_app in Hb. exact (beginning_shorter _ _ Hb). }
  split; [exact Hlen|]. assert (Hi : nth_error (good ++ wrong :: rest) (List.length before) = Some t) by (rewrite <- E; rewrite nth_error_app2, Nat.sub_diag by lia; reflexivity).
  replace (good ++ wrong :: rest) with ((good ++ [wrong]) ++ rest) in Hi by (rewrite <- app_assoc; reflexivity). rewrite nth_error_app1 in Hi; [exact (nth_error_In _ _ Hi)|]. rewrite app_length. cbn. lia.
Qed.
(** The first error is never about a token behind the first one that is wrong. *)
Theorem C65_not_late : forall q k c l good wrong rest, parser_calls (tokens q) = (k, c) :: l ->
  tokens q = good ++ wrong :: rest -> ~ beginning (map t_type (good ++ [wrong])) ->
  exists t, lc_token c = Some t /\ In t (good ++ [wrong]).
Proof.
  intros q k c l good wrong rest H Et HB. destruct (C65_place q k c l H) as (before & t & after & Et' & Hb & HO). rewrite Et in Et'.
  destruct HO as [(S & s & d & _ & _ & _ & _ & HT & _)|(mid & t' & tail & d & Em & Hm & HT & _)].
  - exists t. split; [exact HT|]. exact (proj2 (not_behind before t after good wrong rest (eq_sym Et') Hb HB)).
  - exists t'. split; [exact HT|]. rewrite Em, app_assoc in Et'. exact (proj2 (not_behind (before ++ mid) t' tail good wrong rest (eq_sym Et') Hm HB)).
Qed.

(** The exception of [antlr_parse] on any text outside the grammar (lexical errors are not its listener's business) gives line and column of
    the token of that first error, and the message. *)
Theorem C65_antlr_parse : forall q, ~ conforms (tokens q) ->
  exists k c l t, parser_calls (tokens q) = (k, c) :: l /\ lc_token c = Some t /\ In t (tokens q) /\
    antlr_message q = Some (u "line " ++ dec (t_line t) ++ u ":" ++ dec (t_col t) ++ u " " ++ lc_msg c).
Proof.
  intros q HC. destruct (parser_calls (tokens q)) as [|[k c] l] eqn:Ec; [destruct HC; apply C64_reports; exact Ec|]. exists k, c, l. destruct (C64_tokens q k c) as (t & Ht & E1 & E2 & E3); [rewrite Ec; left; reflexivity|]. exists t.
  split; [reflexivity|]. split; [exact E1|]. split; [exact Ht|]. unfold antlr_message. rewrite Ec, E2, E3. reflexivity.
Qed.

(** ** What does not hold *)
Transparent parser_atn expected set_text.
Definition valid_query : pystr := u "'a' | 'b' [a='x'|b='y'& c='z']".
Lemma valid_begins w z : map t_type (tokens valid_query) = w ++ z -> beginning w.
Proof. intros H. exists (tokens valid_query), z. split; [|exact H]. apply in_grammar_conforms. vm_compute. reflexivity. Qed.
(** The token of the first error need not be wrong: here the query could go on with it (prediction has given up an alternative because of
    what comes later). *)
Theorem C65_exact_refuted :
  ~ (forall q k c l t before after, parser_calls (tokens q) = (k, c) :: l -> lc_token c = Some t -> tokens q = before ++ t :: after -> ~ beginning (map t_type (before ++ [t]))).
Proof.
  intros H. set (q := u "'a' | 'b' [a='x'|b='y'& "). assert (HC : exists k c l t before after, parser_calls (tokens q) = (k, c) :: l /\ lc_token c = Some t /\ tokens q = before ++ t :: after /\ exists z, map t_type (tokens valid_query) = map t_type (before ++ [t]) ++ z).
  { exists 13%nat. eexists _, _, _, (firstn 11 (tokens q)), [_]. split; [vm_compute; reflexivity|]. split; [reflexivity|]. split; [vm_compute; reflexivity|]. eexists. vm_compute. reflexivity. }
  destruct HC as (k & c & l & t & before & after & E1 & E2 & E3 & z & E4). exact (H q k c l t before after E1 E2 E3 (valid_begins _ _ E4)).
Qed.
(** ** Concrete cases of the three kinds, and of the fourth *)
Example C65_witness : heard (u "'a' | 'b' [a='x'|b='y'& ") = [(1, 22, u "mismatched input '&' expecting ']'")] /\
  heard (u "'a' {2") = [(1, 6, u "no viable alternative at input ''a'{2'")] /\
  listed [L_PAREN; L_SQUARE_BRACKET; REGEXP] (u "{'(', '[', REGEXP}") /\ in_order [EOF; WITHIN] /\ beginning [REGEXP; OR].
Proof.
  split; [vm_compute; reflexivity|]. split; [vm_compute; reflexivity|]. split; [|split].
  - apply (ls_more L_PAREN [L_SQUARE_BRACKET; REGEXP] (u ", '[', REGEXP")); [discriminate|]. apply (it_cons L_SQUARE_BRACKET [REGEXP] (u ", REGEXP")). apply (it_cons REGEXP [] []). constructor.
  - repeat constructor.
  - eapply (valid_begins [REGEXP; OR]). vm_compute. reflexivity.
Qed.
Print Assumptions C65_place. Print Assumptions C65_parse. Print Assumptions C65_not_late. Print Assumptions C65_antlr_parse. Print Assumptions C65_exact_refuted.
