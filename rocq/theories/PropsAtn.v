(** Properties C54 and C55: the tables inside the generated lexer and parser. *)
From Coq Require Import String.
From Verif Require Import Base Regex RegexFacts LexRules Lexer Grammar Antlr LexSpec LexFacts LexThms GramSpec GramFacts GenParser AtnData Atn AtnFacts AtnNets GenNet GenPredict PropsLex.
Local Open Scope Z_scope.
Local Open Scope list_scope.

(** C54.  Both tables are well-formed: the deserialiser uses up all their words; there are no
    non-greedy decisions, and no states with precedence. *)
Theorem C54_decodes : decode lexer_words = Some lexer_atn /\ decode parser_words = Some parser_atn /\
  a_type lexer_atn = 0 /\ a_type parser_atn = 1 /\
  a_nongreedy lexer_atn = [] /\ a_precedence lexer_atn = [] /\ a_nongreedy parser_atn = [] /\ a_precedence parser_atn = [].
Proof. vm_compute. repeat split. Qed.

(** The lexer's table has one mode, with as alternatives, in this order, the rules of
    FCSLexer.g4 (without its fragments); from the start state of a rule exactly the texts of the rule lead to
    the end; only white space passes a lexer action, the one that drops the token. *)
Theorem C54_lexer : List.length (a_modes lexer_atn) = 1%nat /\
  Forall2 (fun rule alt => fst alt = tnum (fst rule) /\
    forall w acts, net_text lexer_atn (snd alt) w acts <-> lang (snd rule) w /\ acts = match fst rule with Space => [(6, 0, 0)] | _ => [] end)
    lex_rules (token_alts lexer_atn).
Proof. split; [vm_compute; reflexivity|exact lexer_net]. Qed.

(** The parser's table gives every rule exactly the trees of FCSParser.g4. *)
Theorem C54_parser : forall r ch, net_tree parser_atn r ch <-> derives (body r) ch.
Proof. exact parser_net. Qed.

(** Alternative [n] of the lexer reads [w] (as a token of type [ty], with the actions [acts]). *)
Definition reads (n : nat) (ty : ttype) (w : pystr) (acts : list (Z * Z * Z)) : Prop :=
  exists alt, nth_error (token_alts lexer_atn) n = Some alt /\ fst alt = tnum ty /\ net_text lexer_atn (snd alt) w acts.
Lemma F2_nth1 {X Y} (R : X -> Y -> Prop) a b : Forall2 R a b -> forall n x, nth_error a n = Some x -> exists y, nth_error b n = Some y /\ R x y.
Proof. induction 1 as [|x y a b H _ IH]; intros [|n] z Hn; try discriminate; [injection Hn as <-; exists y; split; [reflexivity|exact H]|]. apply IH. exact Hn. Qed.
Lemma F2_nth2 {X Y} (R : X -> Y -> Prop) a b : Forall2 R a b -> forall n y, nth_error b n = Some y -> exists x, nth_error a n = Some x /\ R x y.
Proof. induction 1 as [|x y a b H _ IH]; intros [|n] z Hn; try discriminate; [injection Hn as <-; exists x; split; [reflexivity|exact H]|]. apply IH. exact Hn. Qed.
Lemma tnum_inj a b : tnum a = tnum b -> a = b.
Proof. destruct a, b; cbn; intros H; congruence. Qed.
Lemma reads_rule n ty w acts : reads n ty w acts <-> exists r, nth_error lex_rules n = Some (ty, r) /\ lang r w /\ acts = match ty with Space => [(6, 0, 0)] | _ => [] end.
Proof.
  unfold reads. split.
  - intros (alt & Hn & Ht & Hw). destruct (F2_nth2 _ _ _ lexer_net _ _ Hn) as ([ty' r] & Hr & Hty & Hl). cbn [fst snd] in *. rewrite Hty in Ht. apply tnum_inj in Ht. subst ty'.
    apply Hl in Hw. destruct Hw as [Hw ->]. eauto.
  - intros (r & Hn & Hw & ->). destruct (F2_nth1 _ _ _ lexer_net _ _ Hn) as (alt & Ha & Hty & Hl). exists alt. split; [exact Ha|]. split; [exact Hty|]. apply Hl. auto.
Qed.
Lemma reads_matched w : matched w <-> exists n ty acts, reads n ty w acts.
Proof.
  split.
  - intros (ty & r & Hin & Hw). destruct (In_nth_error _ _ Hin) as (n & Hn). exists n, ty. eexists. apply reads_rule. eauto.
  - intros (n & ty & acts & H). apply reads_rule in H. destruct H as (r & Hn & Hw & _). exists ty, r. split; [eapply nth_error_In; exact Hn|exact Hw].
Qed.

(** Every token of a query, and every skipped white space, is what the lexer's table reads at
    its place: the longest text that some alternative reads, by the first alternative that
    reads it; the white space is what is read with the action SKIP (6). *)
Theorem C54_tokens : forall q l1 l2 t l, lexemes q = l1 ++ l :: l2 -> l = LxTok t \/ l = LxSkip t ->
  let rest := concat (map lx_text (l :: l2)) in
  q = concat (map lx_text l1) ++ rest /\ (exists after, rest = t_text t ++ after) /\
  exists n acts, reads n (t_type t) (t_text t) acts /\ (l = LxSkip t <-> acts = [(6, 0, 0)]) /\ (l = LxTok t <-> acts = []) /\
    (forall m ty acts', (m < n)%nat -> ~ reads m ty (t_text t) acts') /\
    (forall w after m ty acts', rest = w ++ after -> (List.length (t_text t) < List.length w)%nat -> ~ reads m ty w acts').
Proof.
  intros q l1 l2 t l H Hl rest.
  assert (Hq : q = concat (map lx_text l1) ++ rest).
  { rewrite <- (proj1 (C03_tiles q)) at 1. rewrite H, map_app, concat_app. reflexivity. }
  split; [exact Hq|].
  assert (Hsp : (l = LxSkip t <-> t_type t = Space) /\ (l = LxTok t <-> t_type t <> Space)).
  { rewrite lexemes_lexf in H. assert (Hk : forall s pos line col l1, lexf pos line col s = l1 ++ l :: l2 -> (l = LxSkip t -> t_type t = Space) /\ (l = LxTok t -> t_type t <> Space)).
    { clear. induction s as [s IH] using text_ind. intros pos line col l1 H. destruct (list_eq_dec N.eq_dec s []) as [->|Hne]; [rewrite lexf_nil in H; destruct l1; discriminate|].
      destruct (lexf_cases pos line col s Hne) as [(ty & w & rest & -> & Hlm & He)|(bad & rest & -> & Hbad & _ & _ & He)]; rewrite He in H; destruct l1 as [|x l1].
      - injection H as Hx _. subst l. unfold mk_lexeme. split; destruct ty; intros E; try discriminate; injection E as <-; cbn; congruence.
      - injection H as _ H. eapply (IH rest); [apply app_shorter; apply Hlm|exact H].
      - injection H as Hx _. subst l. split; discriminate.
      - injection H as _ H. eapply (IH rest); [apply app_shorter; exact Hbad|exact H]. }
    destruct (Hk _ _ _ _ _ H) as [H1 H2]. destruct Hl as [->| ->]; split; split; intros E; try discriminate; auto; try reflexivity; exfalso; apply (H2 eq_refl) || apply E; auto. }
  rewrite lexemes_lexf in H. pose proof (lexeme_longest q _ l1 l l2 0 1 0 H Hq eq_refl) as HL.
  assert (Hlm : longest_match rest (t_type t) (t_text t)) by (destruct Hl as [->| ->]; exact HL).
  destruct Hlm as (_ & Hp & (ra & r & rb & Hr & Hw & Hfirst) & Hmax). split; [exact Hp|].
  exists (List.length ra), (match t_type t with Space => [(6, 0, 0)] | _ => [] end). split; [|split; [|split; [|split]]].
  - apply reads_rule. exists r. split; [|split; [exact Hw|reflexivity]]. rewrite Hr, nth_error_app2, Nat.sub_diag by lia. reflexivity.
  - rewrite (proj1 Hsp). destruct (t_type t); split; intros E; try discriminate; reflexivity.
  - rewrite (proj2 Hsp). destruct (t_type t); split; intros E; try discriminate; try reflexivity. destruct E. reflexivity.
  - intros m ty acts' Hm Hrd. apply reads_rule in Hrd. destruct Hrd as (r' & Hn & Hw' & _). rewrite Hr, nth_error_app1 in Hn by exact Hm. apply nth_error_In in Hn. exact (Hfirst _ Hn Hw').
  - intros w after m ty acts' Hwa Hlt Hrd. apply (Hmax w after Hwa Hlt). apply reads_matched. eauto.
Qed.
(** Where the lexer reports an error, no alternative of the table reads any text. *)
Theorem C54_lexical_error : forall q l1 l2 s ln c txt, lexemes q = l1 ++ LxErr s ln c txt :: l2 ->
  forall w after n ty acts, concat (map lx_text (LxErr s ln c txt :: l2)) = w ++ after -> w <> [] -> ~ reads n ty w acts.
Proof.
  intros q l1 l2 s ln c txt H w after n ty acts Hw Hne Hrd.
  assert (Hq : q = concat (map lx_text l1) ++ concat (map lx_text (LxErr s ln c txt :: l2))).
  { rewrite <- (proj1 (C03_tiles q)) at 1. rewrite H, map_app, concat_app. reflexivity. }
  rewrite lexemes_lexf in H. destruct (lexeme_longest q _ l1 _ l2 0 1 0 H Hq eq_refl) as [HL _]. apply (HL w after Hw Hne). apply reads_matched. eauto.
Qed.
(** The trees of a query are those that the parser's table gives the rule [query]. *)
Theorem C54_query : forall ts, conforms ts <-> exists ch, net_tree parser_atn query ch /\ flat_map leaves ch = ts.
Proof.
  intros ts. split.
  - intros (t & Ht & Hl). inversion Ht as [|? ch Hch| | | | | | | |]; subst. exists ch. split; [apply parser_net; exact Hch|reflexivity].
  - intros (ch & Hch & <-). exists (Node query ch). split; [constructor; apply parser_net; exact Hch|reflexivity].
Qed.

(** C55.  Whatever state the parser is in and whatever calls are pending, it is decidable
    whether the table can read the rest of the input to its end ... *)
Theorem C55_decidable : forall q st w, reachb q st w = true <-> reach parser_atn q st w.
Proof. exact reachb_ok. Qed.
(** ... hence there is a prediction that always returns the least such alternative. *)
Theorem C55_prediction : exists p, forall d c w i, p d c w = Some i <-> least_alt parser_atn d c w i.
Proof.
  exists predictor. intros d c w i. split; [|apply predictor_predicts]. unfold predictor. intros H. apply first_alt_spec in H. destruct H as (j & t & Hn & -> & Hr & Hlt). split.
  - exists t. replace (1 + j - 1)%nat with j by lia. split; [exact Hn|]. split; [lia|exact Hr].
  - intros j' t' Hj Hn'. apply (Hlt (j' - 1)%nat t'); [lia|exact Hn'].
Qed.
(** From the start of the rule [query] the table reads exactly the token sequences of the grammar. *)
Theorem C55_language : forall ts, reach parser_atn (start_of parser_atn (rule_num query)) [] (map t_type ts) <-> conforms ts.
Proof.
  intros ts. destruct (parser_frag query) as (v & Hf & Hv).
  rewrite (reach_viable [body query] _ []); [|econstructor; [|exact Hv]; cbn [map]; eapply c_cons; [exact Hf|constructor]].
  rewrite <- in_grammar_conforms, in_grammar_viable. split.
  - intros (x & Hx & Hw). exists [Node query x]. cbn [flat_map leaves]. rewrite app_nil_r. split; [|exact Hw]. inversion Hx as [|e K y z Hy Hz]; subst. inversion Hz; subst. rewrite app_nil_r in *.
    change [Node query y] with ([Node query y] ++ []). constructor; [constructor; exact Hy|constructor].
  - intros (x & Hx & Hw). inversion Hx as [|e K y z Hy Hz]; subst. inversion Hz; subst. inversion Hy as [|? ch Hch| | | | | | | |]; subst. exists ch. cbn [app flat_map leaves] in Hw. rewrite app_nil_r in Hw.
    split; [|exact Hw]. rewrite <- (app_nil_r ch). constructor; [exact Hch|constructor].
Qed.

(** ** Concrete cases *)
(** A query with a token, white space and a character that no token begins with. *)
Example C54_witness : exists l t sp, lexemes (u "a $") = [LxTok t; LxSkip sp; l] /\ t_type t = IDENTIFIER /\ t_text t = u "a" /\
  t_text sp = u " " /\ exists s ln c, l = LxErr s ln c (u "$").
Proof. eexists _, _, _. split; [vm_compute; reflexivity|]. repeat split. eexists _, _, _. reflexivity. Qed.
(** Two alternatives of the table read [within]: the keyword, which comes first, and the identifier. *)
Example C54_two_readings : reads 17 WITHIN (u "within") [] /\ reads 20 IDENTIFIER (u "within") [].
Proof.
  split; apply reads_rule; eexists; (split; [vm_compute; reflexivity|]); (split; [|reflexivity]); apply matches_lang; vm_compute; reflexivity.
Qed.
(** At the first decision of [main_query] two alternatives can read ['a'] to its end, and the
    prediction takes the first; in ['a' 'b'] only the third can. *)
Example C55_witness :
  reach parser_atn 53 [49] [REGEXP; EOF] /\ reach parser_atn 55 [49] [REGEXP; EOF] /\ alternatives parser_atn 1 = [53; 54; 55; 56] /\ follow_of parser_atn 46 = 49 /\
  predictor 1 [46] [REGEXP; EOF] = Some 1%nat /\ predictor 1 [46] [REGEXP; REGEXP; EOF] = Some 3%nat /\ predictor 1 [46] [OR; EOF] = None.
Proof.
  split; [apply reachb_ok; vm_compute; reflexivity|]. split; [apply reachb_ok; vm_compute; reflexivity|]. vm_compute. repeat split.
Qed.
