(** Property C67: literals can be put into queries safely. *)
From Coq Require Import String.
From Verif Require Import Base Regex LexRules Lexer Grammar Antlr Ast Builder Parser LexSpec LitSpec LexThms LexWs
  GramSpec ValueSpec ValueFacts SpellSpec ParseSpec ParseFacts ConfigSpec CoverSpec HoleSpec HoleFacts PropsParse PropsRead PropsCover.
Local Open Scope Z_scope.

(** C67.  A query [p0 w1 p1 ... wk pk] whose parts [p0 ... pk] are sequences of tokens of their own and whose
    holes are literals [w1 ... wk] meaning [v1 ... vk].  If it is accepted, then so it is with any other literals
    in the holes, and the tree is the same except for the values of the expressions of the holes: these are
    the (normalised) texts that the literals mean, all others stay. *)
Theorem C67_template : forall V P p ps ws vs ws' vs' n, env_ok V ->
  List.length ws = List.length ps -> List.length ws' = List.length ps ->
  lex_errors p = [] -> Forall (fun s => lex_errors s = []) ps ->
  Forall2 literal_means ws vs -> Forall2 literal_means ws' vs' ->
  parse V P (fill p ws ps) = Ok n ->
  exists n' f fs, parse V P (fill p ws' ps) = Ok n' /\ outline n' = outline n /\
    values n = fill f (map (fun v => [normalised (e_penv V) (qp_cfg P) v]) vs) fs /\
    values n' = fill f (map (fun v => [normalised (e_penv V) (qp_cfg P) v]) vs') fs /\
    map (@List.length _) (f :: fs) = map literal_count (p :: ps).
Proof.
  intros V P p ps ws vs ws' vs' n HV Hl Hl' Hp Hps Hw Hw' Hn.
  assert (Lw : forall a b, Forall2 literal_means a b -> Forall is_literal a) by (intros a b H; induction H; constructor; [eapply means_literal; eassumption|assumption]).
  assert (Ld : forall a b, Forall2 literal_means a b -> Forall decodable a) by (intros a b H; induction H as [|x y ? ? Hxy]; constructor; [exists y; exact Hxy|assumption]).
  destruct (fill_tokens ws ps p Hp (Lw _ _ Hw) Hps) as [T1 E1]. destruct (fill_tokens ws' ps p Hp (Lw _ _ Hw') Hps) as [T2 E2].
  pose proof (sg_decodable V P _ n HV Hn) as Hd. rewrite T1 in Hd. apply fill_Forall in Hd; [|rewrite !map_length; exact Hl]. destruct Hd as [Hd1 Hd2].
  assert (HA : Forall2 alike (sg (fill p ws ps)) (sg (fill p ws' ps))).
  { rewrite T1, T2. apply fill_alike; [apply alike_refl; exact Hd1| |eapply Ld; exact Hw|eapply Ld; exact Hw'|congruence]. eapply Forall_impl; [|exact Hd2]. intros s. apply alike_refl. }
  destruct (alike_outline V P _ _ n HV E2 HA Hn) as (n' & Hn' & Ho).
  assert (K : forall us xs m, List.length us = List.length ps -> Forall2 literal_means us xs -> Forall is_literal us -> parse V P (fill p us ps) = Ok m ->
    exists f fs, values m = fill f (map (fun v => [normalised (e_penv V) (qp_cfg P) v]) xs) fs /\ Forall2 (gives (e_penv V) (qp_cfg P)) (texts_of (sg p)) f /\
      Forall2 (Forall2 (gives (e_penv V) (qp_cfg P))) (map texts_of (map sg ps)) fs).
  { intros us xs m Hul Hux Hu Hm. destruct (fill_tokens us ps p Hp Hu Hps) as [T _]. pose proof (leaves_values _ _ _ _ (C17_leaves V P _ m HV Hm)) as H.
    rewrite leaves_texts, <- values_leaves in H. change (map sig (lx_tokens (lexemes (fill p us ps)))) with (sg (fill p us ps)) in H. rewrite T, texts_fill in H by (rewrite map_length; exact Hul).
    apply fill_split in H; [|rewrite !map_length; exact Hul]. destruct H as (f & vs0 & fs & H1 & H2 & H3 & H4). exists f, fs. split; [|split; assumption]. rewrite H1. f_equal.
    rewrite <- (map_map (normalised (e_penv V) (qp_cfg P)) (fun v => [v])). f_equal. clear - H3 Hux. revert vs0 H3. induction Hux as [|w x us xs Hwx _ IH]; intros vs0 H3; inversion H3 as [|? v ? vs1 Hv H4]; subst; [reflexivity|].
    cbn [map]. rewrite (IH _ H4). f_equal. destruct Hv as (y & Hy & ->). rewrite (literal_means_det _ _ _ Hwx Hy). reflexivity. }
  destruct (K ws vs n Hl Hw (Lw _ _ Hw) Hn) as (f & fs & V1 & V2 & V3). destruct (K ws' vs' n' Hl' Hw' (Lw _ _ Hw') Hn') as (f' & fs' & W1 & W2 & W3).
  assert (f' = f) as -> by (eapply Forall2_det; [apply gives_det|eassumption|eassumption]).
  assert (fs' = fs) as -> by (eapply Forall2_det; [|eassumption|eassumption]; intros; eapply Forall2_det; [apply gives_det|eassumption|eassumption]).
  exists n', f, fs. split; [exact Hn'|]. split; [exact Ho|]. split; [exact V1|]. split; [exact W1|]. cbn [map]. rewrite count_texts, (forall2_len V2). f_equal.
  clear - V3. revert V3. generalize fs. induction ps as [|s ps IH]; intros fs0 V3; inversion V3 as [|? g ? gs Hg Hgs]; subst; [reflexivity|]. cbn [map]. rewrite count_texts, (forall2_len Hg), (IH _ Hgs). reflexivity.
Qed.

(** So a program may put any texts into a query, as long as it quotes them: the query is accepted, or not,
    whatever the texts, and they end up as values of expressions and nowhere else. *)
Theorem C67_any_text : forall V P p ps vs vs' c n, env_ok V -> (c = 34 \/ c = 39)%N ->
  List.length vs = List.length ps -> List.length vs' = List.length ps ->
  lex_errors p = [] -> Forall (fun s => lex_errors s = []) ps -> Forall is_pystr vs -> Forall is_pystr vs' ->
  parse V P (fill p (map (quote_text c) vs) ps) = Ok n ->
  exists n' f fs, parse V P (fill p (map (quote_text c) vs') ps) = Ok n' /\ outline n' = outline n /\
    values n = fill f (map (fun v => [normalised (e_penv V) (qp_cfg P) v]) vs) fs /\
    values n' = fill f (map (fun v => [normalised (e_penv V) (qp_cfg P) v]) vs') fs /\
    map (@List.length _) (f :: fs) = map literal_count (p :: ps).
Proof.
  intros V P p ps vs vs' c n HV Hc Hl Hl' Hp Hps Hs Hs' Hn.
  assert (Q : forall l, Forall is_pystr l -> Forall2 literal_means (map (quote_text c) l) l).
  { intros l H. induction H as [|x l Hx _ IH]; [constructor|]. constructor; [|exact IH]. apply quote_means; assumption. }
  apply (C67_template V P p ps (map (quote_text c) vs) vs (map (quote_text c) vs') vs' n HV); rewrite ?map_length; try assumption; apply Q; assumption.
Qed.

(** A query with two holes, filled in two ways. *)
Definition with_holes (vs : list pystr) : pystr :=
  fill (u "[word = ") (map (quote_text 39) vs) [u "/i & pos = 'N' | lemma != "; u "] within s"].
Example C67_witness :
  lex_errors (u "[word = ") = [] /\ Forall (fun s => lex_errors s = []) [u "/i & pos = 'N' | lemma != "; u "] within s"] /\
  with_holes [u "a"; u "b"] = u "[word = 'a'/i & pos = 'N' | lemma != 'b'] within s" /\
  with_holes [u "' | x='"; u "\"] = u "[word = '\' | x=\''/i & pos = 'N' | lemma != '\\'] within s" /\
  (exists n, parse some_env default_parser (with_holes [u "a"; u "b"]) = Ok n /\ values n = [u "a"; u "N"; u "b"]) /\
  exists n, parse some_env default_parser (with_holes [u "' | x='"; u "\"]) = Ok n /\ values n = [u "' | x='"; u "N"; u "\"].
Proof.
  split; [vm_compute; reflexivity|]. split; [repeat constructor; vm_compute; reflexivity|]. split; [vm_compute; reflexivity|]. split; [vm_compute; reflexivity|].
  split; eexists; (split; [vm_compute; reflexivity|vm_compute; reflexivity]).
Qed.
(** Without quoting, texts change the query. *)
Theorem C67_refuted_unquoted : exists s n n',
  parse some_env default_parser (u "[word='" ++ u "x" ++ u "']") = Ok n /\
  parse some_env default_parser (u "[word='" ++ s ++ u "']") = Ok n' /\ outline n' <> outline n.
Proof.
  exists (u "x' | pos='y"). do 2 eexists. split; [vm_compute; reflexivity|]. split; [vm_compute; reflexivity|]. intros H. vm_compute in H. discriminate H.
Qed.
(** The parts have to be sequences of tokens: a hole inside a literal is none. *)
Example C67_part_needed : lex_errors (u "[word=""") <> [] /\
  (exists n, parse some_env default_parser (fill (u "[word=""") [u "'a'"] [u """]"]) = Ok n /\ values n = [u "'a'"]) /\
  exists m, parse some_env default_parser (fill (u "[word=""") [u "'""'"] [u """]"]) = Raise (QueryParserError m).
Proof.
  split; [vm_compute; discriminate|]. split; [eexists; split; vm_compute; reflexivity|eexists; vm_compute; reflexivity].
Qed.
Print Assumptions C67_template. Print Assumptions C67_any_text. Print Assumptions C67_refuted_unquoted.
