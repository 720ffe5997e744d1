(** Property C66: what the exception says about a well-formed but unusable query. *)
From Coq Require Import String.
From Verif Require Import Base LexRules Lexer Grammar Antlr Ast Builder LitSpec LexRuleFacts LexThms GramSpec GramFacts
  ValueSpec ValueFacts SpellSpec Parser ParseSpec ParseFacts BuilderFacts ComplaintSpec Numerals ComplaintFacts ComplaintRules PropsParse.
Local Open Scope Z_scope.

(** ** One token, one complaint *)
Lemma element_det E e m m' : element_complaint E e m -> element_complaint E e m' -> m = m'.
Proof.
  intros H H'. destruct H as [c Hc|k ds h Hh Ho Hw|k ds Hh Ho]; inversion H' as [c' Hc'|k' ds' h' Hh' Ho' Hw'|k' ds' Hh' Ho']; subst;
    try reflexivity; try (exfalso; destruct Ho; [lia|congruence]); try (exfalso; destruct Ho'; [lia|congruence]).
  f_equal. eapply written_unique; [|exact Hw|exact Hw']. reflexivity.
Qed.
Lemma first_bad es1 e es2 es1' e' es2' : es1 ++ e :: es2 = es1' ++ e' :: es2' ->
  (forall x, In x es1 -> elem_value x <> None) -> (forall x, In x es1' -> elem_value x <> None) ->
  elem_value e = None -> elem_value e' = None -> e = e'.
Proof.
  revert es1'. induction es1 as [|x es1 IH]; intros es1' H Hg Hg' He He'; destruct es1' as [|x' es1']; cbn in H; injection H as Hx H.
  - exact Hx.
  - subst. exfalso. apply (Hg' x'); [left; reflexivity|exact He].
  - subst. exfalso. apply (Hg e'); [left; reflexivity|exact He'].
  - eapply IH; [exact H|intros y Hy; apply Hg; right; exact Hy|intros y Hy; apply Hg'; right; exact Hy|exact He|exact He'].
Qed.
(** The last three tokens. *)
Lemma last1 {A} (p p' : list A) a b : p ++ [a] = p' ++ [b] -> a = b.
Proof. intros H. apply app_inj_tail in H. apply H. Qed.
Lemma last2 {A} (p p' : list A) a a' b b' : p ++ [a; b] = p' ++ [a'; b'] -> a = a' /\ b = b'.
Proof.
  change [a; b] with ([a] ++ [b]). change [a'; b'] with ([a'] ++ [b']). rewrite !app_assoc. intros H.
  apply app_inj_tail in H. destruct H as [H ->]. apply app_inj_tail in H. destruct H as [_ ->]. auto.
Qed.
Lemma last3 {A} (p p' : list A) a a' b b' c c' : p ++ [a; b; c] = p' ++ [a'; b'; c'] -> a = a' /\ c = c'.
Proof.
  change [a; b; c] with ([a] ++ [b; c]). change [a'; b'; c'] with ([a'] ++ [b'; c']). rewrite !app_assoc. intros H.
  destruct (last2 _ _ _ _ _ _ H) as [-> ->]. apply app_inv_tail in H. apply app_inj_tail in H. destruct H as [_ ->]. auto.
Qed.
Lemma last12 {A} (p p' : list A) a b b' : p ++ [b] = p' ++ [a; b'] -> b = b'.
Proof. change [a; b'] with ([a] ++ [b']). rewrite app_assoc. apply last1. Qed.
Lemma last13 {A} (p p' : list A) a c b b' : p ++ [b] = p' ++ [a; c; b'] -> b = b'.
Proof. change [a; c; b'] with ([a; c] ++ [b']). rewrite app_assoc. apply last1. Qed.
Lemma last23 {A} (p p' : list A) s a c b b' : p ++ [s; b] = p' ++ [a; c; b'] -> b = b'.
Proof. change [s; b] with ([s] ++ [b]). rewrite app_assoc. apply last13. Qed.

Theorem C66_unambiguous : forall E ts m m', first_complaint E ts m -> first_complaint E ts m' -> m = m'.
Proof.
  assert (Hone : forall E l m m', complaint E l m -> complaint E l m' -> m = m').
  { intros E l m m' H H'.
    destruct H as [pre t q es1 e es2 m Ht Hq Hok Htx Hg Hc|pre s t Hs Ht Ha Hb|pre s t f Hs Ht Hn Ha Hb Hf|pre t Ht Hi
      |pre a c b x y dx dy Ha Hc Hb Hia Hib Hx Hy Hlt Hdx Hdy];
    inversion H' as [pre' t' q' es1' e' es2' m2 Ht' Hq' Hok' Htx' Hg' Hc' Heq|pre' s' t' Hs' Ht' Ha' Hb' Heq|pre' s' t' f' Hs' Ht' Hn' Ha' Hb' Hf' Heq|pre' t' Ht' Hi' Heq
      |pre' a' c' b' x' y' dx' dy' Ha' Hc' Hb' Hia' Hib' Hx' Hy' Hlt' Hdx' Hdy' Heq]; try reflexivity;
    try (apply last1 in Heq; congruence); try (apply last12 in Heq; congruence); try (symmetry in Heq; apply last12 in Heq; congruence);
    try (apply last23 in Heq; congruence); try (symmetry in Heq; apply last23 in Heq; congruence).
    - apply last1 in Heq. subst t' m2. rewrite Htx in Htx'. unfold lit_text in Htx'. injection Htx' as -> Htx'.
      apply (lit_body_inj q' (es1 ++ e :: es2) (es1' ++ e' :: es2') [] []) in Htx'; auto. destruct Htx' as [Htx' _].
      assert (e = e') as <- by (eapply first_bad; [exact Htx'|exact Hg|exact Hg'|eapply element_undecodable; eassumption|eapply element_undecodable; eassumption]).
      eapply element_det; eassumption.
    - symmetry in Heq. apply last13 in Heq. congruence.
    - apply last2 in Heq. destruct Heq as [-> ->]. exfalso. apply Hn'. auto.
    - apply last2 in Heq. destruct Heq as [-> ->]. exfalso. apply Hn. auto.
    - symmetry in Heq. apply last13 in Heq. subst. contradiction.
    - apply last13 in Heq. congruence.
    - apply last13 in Heq. subst. contradiction.
    - apply last3 in Heq. destruct Heq as [-> ->].
      assert (x = x') as <- by (eapply numeral_det; eassumption). assert (y = y') as <- by (eapply numeral_det; eassumption).
      rewrite (written_unique 10 x dx dx' eq_refl Hdx Hdx'), (written_unique 10 y dy dy' eq_refl Hdy Hdy'). reflexivity. }
  intros E ts m m' (l & t & r & Hts & Hn & Hc) (l' & t' & r' & Hts' & Hn' & Hc').
  rewrite Hts in Hts'. destruct (app_split _ _ _ _ Hts') as [(x & Hx)|(x & Hne & Hx & Hy)].
  - destruct x as [|y x].
    + rewrite app_nil_r in Hx. subst l'. apply app_inv_head in Hts'. injection Hts' as <- _. eapply Hone; eassumption.
    + exfalso. subst l. rewrite <- app_assoc in Hts'. apply app_inv_head in Hts'. injection Hts' as -> _.
      apply (Hn (l' ++ [t']) x m'); [rewrite <- app_assoc; reflexivity|exact Hc'].
  - exfalso. subst l'. destruct x as [|y x]; [congruence|]. cbn in Hy. injection Hy as -> _.
    apply (Hn' (l ++ [y]) x m); [rewrite <- app_assoc; reflexivity|exact Hc].
Qed.

(** C66.  The exception raised for a well-formed query is about the first token
    that makes it unusable. *)
Theorem C66_message : forall V P q m, env_ok V -> well_formed q ->
  (parse V P q = Raise (QueryParserError m) <-> first_complaint (e_penv V) (tokens q) m).
Proof.
  intros V P q m HV Hw.
  assert (Hfwd : forall m, parse V P q = Raise (QueryParserError m) -> first_complaint (e_penv V) (tokens q) m).
  { intros m0 Hp. unfold parse, parser_parse in Hp. cbn [snd] in Hp.
    destruct (parse_body_wf (build_tree (e_penv V) (qp_cfg P)) V q HV Hw) as (t & Ht & Hb). rewrite Hb in Hp.
    destruct (antlr_tree q (proj2 Hw)) as (t' & Ht' & Hpt & Hl). rewrite Ht in Ht'. injection Ht' as <-.
    destruct (build_tree (e_penv V) (qp_cfg P) t) as [n|e] eqn:He; [discriminate|].
    assert (Hm : m0 = exn_msg e) by (destruct e; cbn [handle] in Hp; injection Hp as <-; reflexivity). subst m0. rewrite <- Hl.
    eapply query_complaint; [exact Hpt|rewrite Hl; apply tokens_ok|exact He]. }
  split; [apply Hfwd|]. intros Hc. destruct (C01_parse_total V P q) as [(n & Hn)|(m' & Hm')].
  - exfalso. destruct (parse_ok_inv V P q n HV Hn) as (n' & [_ Hx] & _).
    eapply first_not; [exact Hc|]. apply texts_no_complaint; [apply tokens_ok|exact Hx].
  - rewrite Hm'. do 2 f_equal. eapply C66_unambiguous; [apply Hfwd; exact Hm'|exact Hc].
Qed.
(** ... and without such a token the query is parsed. *)
Theorem C66_usable : forall V P q, env_ok V -> well_formed q ->
  ((exists n, parse V P q = Ok n) <-> no_complaint (e_penv V) (tokens q)).
Proof.
  intros V P q HV Hw. split.
  - intros (n & Hn). destruct (parse_ok_inv V P q n HV Hn) as (n' & [_ Hx] & _). apply texts_no_complaint; [apply tokens_ok|exact Hx].
  - intros Hn. destruct (C01_parse_total V P q) as [H|(m & Hm)]; [exact H|]. exfalso.
    apply (C66_message V P q m HV Hw) in Hm. eapply first_not; eassumption.
Qed.

(** Integers stand for the number they spell. *)
Theorem C09_numbers : forall q t, In t (tokens q) -> t_type t = INTEGER -> numeral 10 (t_text t) (Z.to_N (dec_value (t_text t))) /\ 0 <= dec_value (t_text t).
Proof.
  intros q t Hin Ht. pose proof (tokens_ok q) as Hok. rewrite Forall_forall in Hok. destruct (Hok t Hin) as [Hx _]. rewrite Ht in Hx.
  destruct (Hx ltac:(discriminate)) as [Hne Hd]. split; [apply numeral_dec; exact Hd|apply dec_value_nonneg; exact Hd].
Qed.
Example C66_witness : exists m1 m2 m3 m4,
  parse some_env (new_parser (default_cfg true)) (u "[ a = '\}' ]") = Raise (QueryParserError m1) /\ m1 = u "invalid escape sequence: \}" /\
  parse some_env (new_parser (default_cfg true)) (u "'\U00abcdef' '\}'") = Raise (QueryParserError m2) /\ m2 = u "invalid codepoint: U+ABCDEF" /\
  parse some_env (new_parser (default_cfg true)) (u "('a'{3,02} | 'a'/iI) within s") = Raise (QueryParserError m3) /\ m3 = u "bad qualifier: min > max (3 > 2)" /\
  parse some_env (new_parser (default_cfg true)) (u "'a'/il{2,1}") = Raise (QueryParserError m4) /\
  m4 = u "invalid combination of regex modifier flags: 'l' is mutually exclusive with 'i', 'c', 'I', 'C' or 'd'" /\
  Forall (fun q => in_grammar (tokens q) = true /\ lex_errors q = []) [u "[ a = '\}' ]"; u "'\U00abcdef' '\}'"; u "('a'{3,02} | 'a'/iI) within s"; u "'a'/il{2,1}"].
Proof.
  do 4 eexists. split; [vm_compute; reflexivity|]. split; [reflexivity|]. split; [vm_compute; reflexivity|]. split; [reflexivity|].
  split; [vm_compute; reflexivity|]. split; [reflexivity|]. split; [vm_compute; reflexivity|]. split; [reflexivity|].
  repeat constructor; vm_compute; reflexivity.
Qed.
Print Assumptions C66_message. Print Assumptions C66_usable. Print Assumptions C66_unambiguous. Print Assumptions C09_numbers.
