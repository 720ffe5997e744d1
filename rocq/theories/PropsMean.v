(** Property C63: a query means what its tokens mean. *)
From Coq Require Import String.
From Verif Require Import Base Regex LexRules Lexer Grammar Antlr Ast Builder Parser ModelTests LexSpec LitSpec
  GramSpec GramFacts ValueSpec ValueFacts SpellSpec BuilderFacts BuilderRules ParseSpec ParseFacts EvFacts TreeSpec TreeFacts SimFacts MeanSpec MeanFacts ConfigFacts PropsParse PropsRead.
Local Open Scope Z_scope.

(** C63.  Rewriting the tokens of an accepted query so that they say the same (other quotes or escapes, leading
    zeros, another order or spelling of the flags, the short form of a scope, other blanks) gives an accepted query
    with the same tree up to source locations ... *)
Theorem C63_meaning : forall V P q q' n, env_ok V -> parse V P q = Ok n ->
  lex_errors q' = [] -> says_same (e_penv V) (tokens q) (tokens q') ->
  exists n', parse V P q' = Ok n' /\ erase n' = erase n.
Proof. intros V P q q' n HV Hp He Hs. eapply same_meaning; eassumption. Qed.

(** ... and the very same tree if source locations are off. *)
Theorem C63_equal : forall V P q q' n, env_ok V -> enableSourceLocations (qp_cfg P) = false -> parse V P q = Ok n ->
  lex_errors q' = [] -> says_same (e_penv V) (tokens q) (tokens q') -> parse V P q' = Ok n.
Proof.
  intros V P q q' n HV Hoff Hp He Hs. destruct (same_meaning V P q q' n HV He Hs Hp) as (n' & Hp' & Hn).
  destruct (parse_ev V P q n HV Hp) as (_ & m & _ & _ & _ & _ & _ & ->). destruct (parse_ev V P q' n' HV Hp') as (_ & m' & _ & _ & _ & _ & _ & ->).
  rewrite Hp'. rewrite Hoff in *. cbn [with_locs] in *. rewrite !erase_erase in Hn. rewrite Hn. reflexivity.
Qed.

(** A query in two wordings. *)
Definition one_wording := u "[w = 'a'/ci]{02} within s".
Definition other_wording := u "[w='\x61'/i]   {2}within sentence".
Lemma wordings : says_same (e_penv some_env) (tokens one_wording) (tokens other_wording).
Proof.
  assert (L1 : literal_means (u "'a'") (u "a")) by (exists 39%N, [EPlain 97]; repeat split; [right; reflexivity|repeat constructor; cbn; lia]).
  assert (L2 : literal_means (u "'\x61'") (u "a")) by (exists 39%N, [EHex 120 (u "61")]; repeat split; [right; reflexivity|repeat constructor]).
  assert (F1 : flags_denote (u "ci") (mkFlags true false false false)).
  { intros f. split; [intros H; destruct f; try discriminate H; exists 99%N; split; [left; reflexivity|reflexivity]|]. intros (c & [<-|[<-|[]]] & Hc); injection Hc as <-; reflexivity. }
  assert (F2 : flags_denote (u "i") (mkFlags true false false false)).
  { intros f. split; [intros H; destruct f; try discriminate H; exists 105%N; split; [left; reflexivity|reflexivity]|]. intros (c & [<-|[]] & Hc); injection Hc as <-; reflexivity. }
  assert (S1 : scope_word (u "s") SENTENCE) by constructor. assert (S2 : scope_word (u "sentence") SENTENCE) by constructor.
  split; [vm_compute; reflexivity|].
  remember (tokens one_wording) as l eqn:El. vm_compute in El. remember (tokens other_wording) as l' eqn:El'. vm_compute in El'. subst l l'.
  intros i a a' Ha Ha'.
  do 13 (destruct i as [|i]; [injection Ha as <-; injection Ha' as <-; cbn [t_type t_text]; split;
    [intros H; first [discriminate H|exists (u "a"); auto]|split;
     [intros H; first [discriminate H|split; [reflexivity|vm_compute; intuition congruence]]|
      intros b b' Hb Hb'; cbn in Hb, Hb'; first [discriminate Hb|injection Hb as <-; injection Hb' as <-; cbn [t_type t_text]; split;
        [intros H; first [reflexivity|exfalso; cbn in H; intuition congruence]|split;
         intros H H'; first [discriminate H|discriminate H'|eexists; split; eassumption]]]]]|]).
  destruct i; discriminate Ha.
Qed.
Example C63_witness : lex_errors other_wording = [] /\ (exists n, parse some_env default_parser one_wording = Ok n) /\
  says_same (e_penv some_env) (tokens one_wording) (tokens other_wording).
Proof. split; [vm_compute; reflexivity|]. split; [eexists; vm_compute; reflexivity|exact wordings]. Qed.

(** Other words after [within] or other flags are another meaning. *)
Example C63_other : ~ says_same (e_penv some_env) (tokens (u "'a' within s")) (tokens (u "'a' within text")).
Proof.
  intros [_ H]. destruct (H 1%nat _ _ eq_refl eq_refl) as (_ & _ & A). destruct (A _ _ eq_refl eq_refl) as (_ & _ & B).
  destruct B as (sc & B1 & B2); [reflexivity|reflexivity|]. vm_compute in B1, B2. inversion B1; subst; inversion B2.
Qed.
Print Assumptions C63_meaning.
