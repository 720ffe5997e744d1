(** C74: every query can be written in printable ASCII. *)
From Coq Require Import String.
From Verif Require Import Base Regex LexRules Lexer Grammar Antlr Ast Builder Parser ModelTests LexSpec LitSpec LexFacts LexThms
  GramSpec GramFacts ValueSpec ValueFacts SpellSpec BuilderFacts BuilderRules ParseSpec ParseFacts EvFacts TreeSpec TreeFacts SimFacts WriteFacts MeanSpec MeanFacts ConfigFacts PropsParse PropsRead PropsMean AsciiSpec AsciiFacts.
Local Open Scope Z_scope.

Lemma flags_some w : exists S, flags_denote w S.
Proof.
  exists (mkFlags (existsb (fun c => match flag_meaning c with Some CASE_INSENSITIVE => true | _ => false end) w)
    (existsb (fun c => match flag_meaning c with Some CASE_SENSITIVE => true | _ => false end) w)
    (existsb (fun c => match flag_meaning c with Some LITERAL_MATCHING => true | _ => false end) w)
    (existsb (fun c => match flag_meaning c with Some IGNORE_DIACRITICS => true | _ => false end) w)).
  intros f. split.
  - intros H. destruct f; cbn [flag_in] in H; apply existsb_exists in H; destruct H as (c & Hc & H); exists c; (split; [exact Hc|]);
      destruct (flag_meaning c) as [[]|]; try discriminate H; reflexivity.
  - intros (c & Hc & H). destruct f; cbn [flag_in]; apply existsb_exists; exists c; (split; [exact Hc|]); rewrite H; reflexivity.
Qed.
Lemma scope_some w : In w scope_words -> exists sc, scope_word w sc.
Proof.
  unfold scope_words. cbn [map In]. intros H. repeat (destruct H as [<-|H]; [eexists; constructor|]). destruct H.
Qed.

Lemma respelt_says E l ws l' :
  Forall2 respelt l ws -> spelt l' ws ->
  Forall (fun t => text_ok (t_type t) (t_text t)) l ->
  (forall t, In t l -> t_type t = INTEGER -> int_ok E (t_text t)) ->
  forall e e', t_type e = EOF -> t_type e' = EOF -> t_text e = t_text e' ->
  says_if (fun w w' => exists v, literal_means w v /\ literal_means w' v) E (l ++ [e]) (l' ++ [e']).
Proof.
  intros HR [Hw Ht] Hok Hi e e' He He' Hee.
  assert (P : Forall2 (fun a a' => t_type a = t_type a' /\ (t_type a = REGEXP -> exists v, literal_means (t_text a) v /\ literal_means (t_text a') v) /\
    (t_type a <> REGEXP -> t_text a = t_text a') /\ (t_type a = EOF \/ text_ok (t_type a) (t_text a)) /\ (t_type a = INTEGER -> int_ok E (t_text a))) (l ++ [e]) (l' ++ [e'])).
  { apply Forall2_app.
    - revert l' Hw Ht. induction HR as [|a w l ws Ha HR IH]; intros [|a' l'] Hw Ht; try discriminate; [constructor|].
      cbn [map] in Hw. injection Hw as Hw1 Hw. inversion Ht; subst. inversion Hok; subst. constructor.
      + destruct Ha as (A & _ & B & D). assert (Ta : t_type a = t_type a') by (eapply first_rule_det; [exact A|assumption]).
        repeat split; auto. intros Hn. symmetry. auto. apply Hi. left. reflexivity.
      + apply IH; auto. intros t Hin. apply Hi. right. exact Hin.
    - constructor; [|constructor]. rewrite He, He'. split; [reflexivity|]. split; [discriminate|]. split; [auto|]. split; [auto|discriminate]. }
  split.
  - clear -P. induction P as [|a a' x y H _ IH]; cbn [map]; [reflexivity|]. rewrite IH. f_equal. tauto.
  - assert (N : forall i a a', nth_error (l ++ [e]) i = Some a -> nth_error (l' ++ [e']) i = Some a' ->
      t_type a = t_type a' /\ (t_type a = REGEXP -> exists v, literal_means (t_text a) v /\ literal_means (t_text a') v) /\
    (t_type a <> REGEXP -> t_text a = t_text a') /\ (t_type a = EOF \/ text_ok (t_type a) (t_text a)) /\ (t_type a = INTEGER -> int_ok E (t_text a))).
    { clear -P. intros i. revert i. induction P as [|a a' x y H _ IH]; intros [|i] b b' Hb Hb'; try discriminate.
      - cbn in Hb, Hb'. injection Hb as <-. injection Hb' as <-. exact H.
      - apply (IH i); assumption. }
    intros i a a' Ha Ha'. destruct (N i a a' Ha Ha') as (A1 & A2 & A3 & A4 & A5). split; [exact A2|]. split.
    + intros Hy. rewrite <- A3 by congruence. auto.
    + intros b b' Hb Hb'. destruct (N (S i) b b' Hb Hb') as (B1 & B2 & B3 & B4 & B5). split; [auto|]. split.
      * intros _ Hy. rewrite <- B3 by congruence. destruct (flags_some (t_text b)) as (S & HS). exists S. auto.
      * intros _ Hy. rewrite <- B3 by congruence. destruct B4 as [B4|B4]; [congruence|]. rewrite Hy in B4. cbn [text_ok] in B4.
        destruct (scope_some _ B4) as (sc & Hsc). exists sc. auto.
Qed.

(** Whatever is queried can be queried in printable ASCII: for every query that parses there is one between space and tilde
    with the same tree up to source locations. *)
Theorem C74_ascii : forall V P q n, env_ok V -> parse V P q = Ok n ->
  exists q' n', printable_text q' /\ parse V P q' = Ok n' /\ erase n' = erase n.
Proof.
  intros V P q n HV Hp.
  destruct (parse_ok_inv V P q n HV Hp) as (m & [_ Hx] & _).
  assert (Hd := C07_all_decoded V P q n HV Hp).
  assert (F : Forall (fun t => typed t /\ t_type t <> Space /\ (t_type t = REGEXP -> decodable (t_text t))) (lx_tokens (lexemes q))).
  { apply Forall_forall. intros t Hin. destruct (token_at q t Hin) as (b & a & _ & _ & _ & _ & _ & Hsp & _ & _ & Hf & _).
    split; [exact Hf|]. split; [exact Hsp|]. apply Hd. exact Hin. }
  destruct (respell_all _ F) as (ws & HR).
  assert (W : Forall is_word ws /\ Forall printable_text ws).
  { clear -HR F. induction HR as [|t w l ws Ht _ IH]; [auto|]. inversion F as [|? ? (_ & Hs & _) F']; subst. destruct (IH F') as [A B].
    destruct Ht as (H1 & H2 & _). split; constructor; auto. exists (t_type t). auto. }
  destruct W as [W1 W2]. destruct (words_tokens ws W1) as [Hsp Hle].
  exists (join (u " ") ws).
  destruct (same_meaning_if V P q (join (u " ") ws) n HV Hle) as (n' & Hp' & He); [|exact Hp|].
  - assert (S : says_if (fun w w' => exists v, literal_means w v /\ literal_means w' v) (e_penv V) (tokens q) (tokens (join (u " ") ws))).
    { unfold tokens. apply (respelt_says _ _ ws); auto.
      - apply Forall_forall. intros t Hin. apply (token_text_ok q t Hin).
      - intros t Hin Hy. apply (proj1 (proj2 (proj2 Hx))); [apply in_or_app; left; exact Hin|exact Hy]. }
    destruct S as [S1 S2]. split; [exact S1|]. intros i a a' Ha Ha'. destruct (S2 i a a' Ha Ha') as (A & B). split; [|exact B].
    intros Hy. destruct (A Hy) as (v & A1 & A2). split; [exists v; exact A2|]. eapply value_like; eassumption.
  - exists n'. split; [|auto]. apply join_printable; [|exact W2]. constructor; [unfold printable; cbn; split; discriminate|constructor].
Qed.

(** ... the very same tree if source locations are off. *)
Theorem C74_equal : forall V P q n, env_ok V -> enableSourceLocations (qp_cfg P) = false -> parse V P q = Ok n ->
  exists q', printable_text q' /\ parse V P q' = Ok n.
Proof.
  intros V P q n HV Hoff Hp. destruct (C74_ascii V P q n HV Hp) as (q' & n' & Hq & Hp' & He). exists q'. split; [exact Hq|].
  destruct (parse_ev V P q n HV Hp) as (_ & m & _ & _ & _ & _ & _ & ->). destruct (parse_ev V P q' n' HV Hp') as (_ & m' & _ & _ & _ & _ & _ & ->).
  rewrite Hp'. rewrite Hoff in *. cbn [with_locs] in *. rewrite !erase_erase in He. rewrite He. reflexivity.
Qed.

(** Any text at all can be asked for in printable ASCII. *)
Theorem C74_text : forall V P s, env_ok V -> is_pystr s ->
  exists q' n', printable_text q' /\ parse V P q' = Ok n' /\
    erase n' = QN (PSegment 1 1) None [QN (PExpr None (default_identifier (qp_cfg P)) (default_operator (qp_cfg P))
                 (normalised (e_penv V) (qp_cfg P) s) None) None []].
Proof.
  intros V P s HV Hs. destruct (C06_quote_roundtrip V P s 34%N HV Hs (or_introl eq_refl)) as (loc & Hp).
  destruct (C74_ascii V P _ _ HV Hp) as (q' & n' & A & B & D). exists q', n'. split; [exact A|]. split; [exact B|]. exact D.
Qed.

(** Not a restriction to ASCII texts: a query with characters below, inside and beyond it. *)
Definition foreign : pystr := (u "[w = 'a" ++ [252; 128512; 7]%N ++ u "']" ++ [160%N] ++ u "within s").
Example C74_witness : ~ printable_text foreign /\
  (exists n n', parse some_env default_parser foreign = Ok n /\ parse some_env default_parser (u "[w = 'a\xfc\U0001f600\x07'] within s") = Ok n' /\ erase n' = erase n) /\
  printable_text (u "[w = 'a\xfc\U0001f600\x07'] within s").
Proof.
  split; [|split].
  - intros H. unfold printable_text in H. rewrite Forall_forall in H. destruct (H 252%N) as [_ A]; [vm_compute; tauto|]. apply A. reflexivity.
  - do 2 eexists. split; [vm_compute; reflexivity|]. split; [vm_compute; reflexivity|]. reflexivity.
  - unfold printable_text. apply Forall_forall. intros c Hc. unfold printable. vm_compute in Hc.
    repeat (destruct Hc as [<-|Hc]; [split; discriminate|]). destruct Hc.
Qed.
Print Assumptions C74_ascii.
Print Assumptions C74_equal.
Print Assumptions C74_text.
