(** C72: what [validate] says does not depend on layout, and is put together from what it says about the parts. *)
From Coq Require Import String.
From Verif Require Import Base Regex LexRules Lexer Grammar Antlr Ast Builder Parser Validation LexSpec LexFacts LexWs TokenSpec LitSpec ValueSpec
  SpellSpec BuilderFacts ParseSpec ParseFacts TreeSpec TreeFacts SitFacts AccessSpec ValidSpec PropsParse PropsRead PropsTree PropsAccess PropsVisit ValidFacts PropsValid MessageFacts PropsValidate PropsConfig
  MeanSpec LayoutSpec PropsLayout ComposeSpec PropsCompose PropsStr VComposeSpec VComposeFacts.
Local Open Scope Z_scope.

Lemma parsed_nonempty V q n : env_ok V -> parse V (new_parser (default_cfg true)) q = Ok n -> q <> [].
Proof.
  intros HV Hp ->. destruct (C21_locations V (new_parser (default_cfg true)) [] n n HV Hp (sub_here n)) as (l & _ & H0 & H1). change (zlen []) with 0 in H1. lia.
Qed.
Lemma verdict_unparsed V repr_list q wae : env_ok V -> (forall n, parse V (new_parser (default_cfg true)) q <> Ok n) -> verdict V repr_list q wae false.
Proof.
  intros HV Hn. unfold verdict, fcsql_validate. change (VALIDATORS (u "2.2")) with true. cbn [negb]. unfold parse in Hn.
  pose proof (C01_parse_total V (new_parser (default_cfg true)) q) as Ht. unfold parse in Ht. destruct (parser_parse V (new_parser (default_cfg true)) q) as [P r]. cbn [snd] in *.
  destruct r as [n|e]; [destruct (Hn n eq_refl)|]. destruct Ht as [[n Hx]|[m Hx]]; [discriminate|injection Hx as ->]. reflexivity.
Qed.

(** ** Layout *)
(** White space between tokens does not change the verdict, whatever the query. *)
Theorem C72_verdict : forall V repr_list q w i wae b, env_ok V -> token_boundary q i -> Forall white_space w ->
  verdict V repr_list q wae b <-> verdict V repr_list (firstn i q ++ w ++ skipn i q) wae b.
Proof.
  intros V repr_list q w i wae b HV Hb Hw. destruct (C05_white_space V (new_parser (default_cfg true)) q w i HV Hb Hw) as [_ H2].
  destruct (parse V (new_parser (default_cfg true)) q) as [n|e] eqn:Hp.
  - pose proof (C70_insert V _ q w i n HV Hb Hw Hp) as Hp'. rewrite (verdict_parsed _ _ _ _ _ _ Hp), (verdict_parsed _ _ _ _ _ _ Hp'), findings_reloc, fine_reloc. reflexivity.
  - pose proof (verdict_unparsed V repr_list q wae HV ltac:(intros n; rewrite Hp; discriminate)) as A.
    assert (B : verdict V repr_list (firstn i q ++ w ++ skipn i q) wae false). { apply verdict_unparsed; [exact HV|]. intros n Hn. destruct (H2 n Hn) as (n0 & Hn0 & _). discriminate. }
    unfold verdict in *. rewrite A, B. reflexivity.
Qed.
(** Two queries whose tokens say the same: the same verdict, ... *)
Theorem C72_same : forall V repr_list q q' n wae b, env_ok V -> parse V (new_parser (default_cfg true)) q = Ok n ->
  lex_errors q' = [] -> says_same (e_penv V) (tokens q) (tokens q') ->
  verdict V repr_list q wae b <-> verdict V repr_list q' wae b.
Proof.
  intros V repr_list q q' n wae b HV Hp He Hs. destruct (C70_maps q q') as (f & g & Hfg). pose proof (C70_tokens V _ q q' n f g HV Hp He Hs Hfg) as Hp'.
  rewrite (verdict_parsed _ _ _ _ _ _ Hp), (verdict_parsed _ _ _ _ _ _ Hp'), findings_reloc, fine_reloc. reflexivity.
Qed.
(** ... and the same complaints in the same order, about the corresponding text. *)
Theorem C72_complaints : forall V repr_list q q' n f g wae l, env_ok V -> parse V (new_parser (default_cfg true)) q = Ok n ->
  lex_errors q' = [] -> says_same (e_penv V) (tokens q) (tokens q') ->
  (forall i t t', nth_error (lx_tokens (lexemes q)) i = Some t -> nth_error (lx_tokens (lexemes q')) i = Some t' ->
    f (t_start t) = t_start t' /\ g (t_stop t + 1) = t_stop t' + 1) ->
  complaints V repr_list q wae l -> complaints V repr_list q' wae (map (relaid f g q') l).
Proof.
  intros V repr_list q q' n f g wae l HV Hp He Hs Hfg Hl. pose proof (C70_tokens V _ q q' n f g HV Hp He Hs Hfg) as Hp'.
  pose proof (parsed_nonempty V q' _ HV Hp') as Hq'. destruct wae.
  - apply (complaints_all V repr_list q n Hp) in Hl. subst l. apply (complaints_all V repr_list q' _ Hp'). unfold fnd. rewrite map_app, !(details_relaid V HV q n repr_list (plain_cfg false false) Hp f g q' _ Hq'). reflexivity.
  - apply (complaints_errors V repr_list q n Hp) in Hl. subst l. apply (complaints_errors V repr_list q' _ Hp'). unfold fnd. rewrite !(details_relaid V HV q n repr_list (plain_cfg false false) Hp f g q' _ Hq'). reflexivity.
Qed.
(** White space put in at a token boundary moves the complaints about what comes behind by its length. *)
Theorem C72_insert : forall V repr_list q w i n wae l, env_ok V -> token_boundary q i -> Forall white_space w ->
  parse V (new_parser (default_cfg true)) q = Ok n -> complaints V repr_list q wae l ->
  let q' := firstn i q ++ w ++ skipn i q in
  complaints V repr_list q' wae (map (relaid (moved_start (Z.of_nat i) (Z.of_nat (List.length w))) (moved_stop (Z.of_nat i) (Z.of_nat (List.length w))) q') l).
Proof.
  intros V repr_list q w i n wae l HV Hb Hw Hp Hl q'. pose proof (C70_insert V _ q w i n HV Hb Hw Hp) as Hp'. fold q' in Hp'.
  pose proof (parsed_nonempty V q' _ HV Hp') as Hq'. destruct wae.
  - apply (complaints_all V repr_list q n Hp) in Hl. subst l. apply (complaints_all V repr_list q' _ Hp'). unfold fnd. rewrite map_app, !(details_relaid V HV q n repr_list (plain_cfg false false) Hp _ _ q' _ Hq'). reflexivity.
  - apply (complaints_errors V repr_list q n Hp) in Hl. subst l. apply (complaints_errors V repr_list q' _ Hp'). unfold fnd. rewrite !(details_relaid V HV q n repr_list (plain_cfg false false) Hp _ _ q' _ Hq'). reflexivity.
Qed.

(** ** Putting together *)
(** In the following, [E] are the errors of a query and [W] its warnings. *)
Lemma two_parts V repr_list a q1 b q2 c n1 n2 n : env_ok V ->
  parse V (new_parser (default_cfg true)) q1 = Ok n1 -> parse V (new_parser (default_cfg true)) q2 = Ok n2 ->
  parse V (new_parser (default_cfg true)) (a ++ q1 ++ b ++ q2 ++ c) = Ok n ->
  (forall C, findings (expr_checks repr_list C) n = findings (expr_checks repr_list C) (move_locs (zlen a) n1) ++ findings (expr_checks repr_list C) (move_locs (zlen (a ++ q1 ++ b)) n2)) ->
  (forall E1 W1 E2 W2,
    complaints V repr_list q1 false E1 -> complaints V repr_list q1 true (E1 ++ W1) ->
    complaints V repr_list q2 false E2 -> complaints V repr_list q2 true (E2 ++ W2) ->
    complaints V repr_list (a ++ q1 ++ b ++ q2 ++ c) false (map (moved_detail (zlen a)) E1 ++ map (moved_detail (zlen (a ++ q1 ++ b))) E2) /\
    complaints V repr_list (a ++ q1 ++ b ++ q2 ++ c) true
      ((map (moved_detail (zlen a)) E1 ++ map (moved_detail (zlen (a ++ q1 ++ b))) E2) ++ map (moved_detail (zlen a)) W1 ++ map (moved_detail (zlen (a ++ q1 ++ b))) W2)) /\
  (forall wae b1 b2, verdict V repr_list q1 wae b1 -> verdict V repr_list q2 wae b2 -> verdict V repr_list (a ++ q1 ++ b ++ q2 ++ c) wae (b1 && b2)).
Proof.
  intros HV Hp1 Hp2 Hp Hf. split.
  - intros E1 W1 E2 W2 HE1 HW1 HE2 HW2. rewrite (complaints_errors _ _ _ _ Hp1) in HE1. rewrite (complaints_errors _ _ _ _ Hp2) in HE2.
    rewrite (complaints_all _ _ _ _ Hp1) in HW1. rewrite (complaints_all _ _ _ _ Hp2) in HW2. rewrite HE1 in HW1. rewrite HE2 in HW2. apply app_inv_head in HW1, HW2. subst.
    assert (H : forall s, map (detail_of (Some (a ++ q1 ++ b ++ q2 ++ c))) (of_sev s (fnd repr_list n)) =
      map (moved_detail (zlen a)) (map (detail_of (Some q1)) (of_sev s (fnd repr_list n1))) ++ map (moved_detail (zlen (a ++ q1 ++ b))) (map (detail_of (Some q2)) (of_sev s (fnd repr_list n2)))).
    { intros s. unfold fnd. rewrite Hf, of_sev_app, map_app. f_equal; [exact (details_moved V HV q1 n1 repr_list _ Hp1 a (b ++ q2 ++ c) s)|].
      pose proof (details_moved V HV q2 n2 repr_list (plain_cfg false false) Hp2 (a ++ q1 ++ b) c s) as H. rewrite <- !app_assoc in H. exact H. }
    rewrite (complaints_errors _ _ _ _ Hp), (complaints_all _ _ _ _ Hp), !H. split; reflexivity.
  - intros wae b1 b2 H1 H2. apply (verdict_parsed _ _ _ _ _ _ Hp1) in H1. apply (verdict_parsed _ _ _ _ _ _ Hp2) in H2. apply (verdict_parsed _ _ _ _ _ _ Hp). rewrite Hf, fine_app, !fine_move. congruence.
Qed.
Lemma one_part V repr_list a q1 c n1 n : env_ok V ->
  parse V (new_parser (default_cfg true)) q1 = Ok n1 -> parse V (new_parser (default_cfg true)) (a ++ q1 ++ c) = Ok n ->
  (forall C, findings (expr_checks repr_list C) n = findings (expr_checks repr_list C) (move_locs (zlen a) n1)) ->
  (forall wae l, complaints V repr_list q1 wae l -> complaints V repr_list (a ++ q1 ++ c) wae (map (moved_detail (zlen a)) l)) /\
  (forall wae b, verdict V repr_list q1 wae b -> verdict V repr_list (a ++ q1 ++ c) wae b).
Proof.
  intros HV Hp1 Hp Hf. split.
  - intros wae l Hl. assert (H : forall s, map (detail_of (Some (a ++ q1 ++ c))) (of_sev s (fnd repr_list n)) =
      map (moved_detail (zlen a)) (map (detail_of (Some q1)) (of_sev s (fnd repr_list n1)))) by (intros s; unfold fnd; rewrite Hf; exact (details_moved V HV q1 n1 repr_list _ Hp1 a c s)).
    destruct wae.
    + rewrite (complaints_all _ _ _ _ Hp1) in Hl. subst l. rewrite (complaints_all _ _ _ _ Hp), !H, map_app. reflexivity.
    + rewrite (complaints_errors _ _ _ _ Hp1) in Hl. subst l. rewrite (complaints_errors _ _ _ _ Hp), !H. reflexivity.
  - intros wae b H1. apply (verdict_parsed _ _ _ _ _ _ Hp1) in H1. apply (verdict_parsed _ _ _ _ _ _ Hp). rewrite Hf, fine_move. congruence.
Qed.

(** Alternatives. *)
Theorem C72_alternatives : forall V repr_list q1 q2 n1 n2, env_ok V ->
  parse V (new_parser (default_cfg true)) q1 = Ok n1 -> parse V (new_parser (default_cfg true)) q2 = Ok n2 ->
  q_class n1 <> CQueryWithWithin -> q_class n2 <> CQueryWithWithin ->
  (forall E1 W1 E2 W2,
    complaints V repr_list q1 false E1 -> complaints V repr_list q1 true (E1 ++ W1) ->
    complaints V repr_list q2 false E2 -> complaints V repr_list q2 true (E2 ++ W2) ->
    let moved := map (moved_detail (zlen q1 + 1)) in
    complaints V repr_list (q1 ++ u "|" ++ q2) false (E1 ++ moved E2) /\
    complaints V repr_list (q1 ++ u "|" ++ q2) true ((E1 ++ moved E2) ++ W1 ++ moved W2)) /\
  (forall wae b1 b2, verdict V repr_list q1 wae b1 -> verdict V repr_list q2 wae b2 -> verdict V repr_list (q1 ++ u "|" ++ q2) wae (b1 && b2)).
Proof.
  intros V repr_list q1 q2 n1 n2 HV Hp1 Hp2 Hc1 Hc2. pose proof (C58_alternatives V _ q1 q2 n1 n2 HV Hp1 Hp2 Hc1 Hc2) as Hp.
  assert (Hz : zlen ([] ++ q1 ++ u "|") = zlen q1 + 1) by (unfold zlen; cbn [app]; rewrite app_length; cbn [u List.length]; rewrite Nat2Z.inj_add; reflexivity).
  pose proof (two_parts V repr_list [] q1 (u "|") q2 [] n1 n2 (QN PDisjunction (between (q_loc n1) (q_loc (move_locs (zlen q1 + 1) n2))) (operands_of n1 ++ operands_of (move_locs (zlen q1 + 1) n2))) HV Hp1 Hp2) as H.
  rewrite Hz in H. change (zlen []) with 0 in H. rewrite move0, !app_nil_r in H. cbn [app] in H. specialize (H Hp).
  destruct H as [A B]. { intros C. rewrite C37_compositional by discriminate. rewrite flat_map_app, !findings_operands. reflexivity. }
  split; [|exact B]. intros E1 W1 E2 W2 H1 H2 H3 H4 moved. destruct (A E1 W1 E2 W2 H1 H2 H3 H4) as [X Y]. rewrite (moved0 E1) in X, Y. rewrite (moved0 W1) in Y. split; assumption.
Qed.
(** Sequences. *)
Theorem C72_sequence : forall V repr_list q1 q2 n1 n2, env_ok V ->
  parse V (new_parser (default_cfg true)) q1 = Ok n1 -> parse V (new_parser (default_cfg true)) q2 = Ok n2 ->
  ~ In (q_class n1) [CQueryWithWithin; CQueryDisjunction] -> ~ In (q_class n2) [CQueryWithWithin; CQueryDisjunction] ->
  (forall E1 W1 E2 W2,
    complaints V repr_list q1 false E1 -> complaints V repr_list q1 true (E1 ++ W1) ->
    complaints V repr_list q2 false E2 -> complaints V repr_list q2 true (E2 ++ W2) ->
    let moved := map (moved_detail (zlen q1)) in
    complaints V repr_list (q1 ++ q2) false (E1 ++ moved E2) /\
    complaints V repr_list (q1 ++ q2) true ((E1 ++ moved E2) ++ W1 ++ moved W2)) /\
  (forall wae b1 b2, verdict V repr_list q1 wae b1 -> verdict V repr_list q2 wae b2 -> verdict V repr_list (q1 ++ q2) wae (b1 && b2)).
Proof.
  intros V repr_list q1 q2 n1 n2 HV Hp1 Hp2 Hc1 Hc2. pose proof (C58_sequence V _ q1 q2 n1 n2 HV Hp1 Hp2 Hc1 Hc2) as Hp.
  assert (Hz : zlen ([] ++ q1 ++ []) = zlen q1) by (cbn [app]; rewrite app_nil_r; reflexivity).
  pose proof (two_parts V repr_list [] q1 [] q2 [] n1 n2 (QN PSequence (between (q_loc n1) (q_loc (move_locs (zlen q1) n2))) (items_of n1 ++ items_of (move_locs (zlen q1) n2))) HV Hp1 Hp2) as H.
  rewrite Hz in H. change (zlen []) with 0 in H. rewrite move0, !app_nil_r in H. cbn [app] in H. specialize (H Hp).
  destruct H as [A B]. { intros C. rewrite C37_compositional by discriminate. rewrite flat_map_app, !findings_items. reflexivity. }
  split; [|exact B]. intros E1 W1 E2 W2 H1 H2 H3 H4 moved. destruct (A E1 W1 E2 W2 H1 H2 H3 H4) as [X Y]. rewrite (moved0 E1) in X, Y. rewrite (moved0 W1) in Y. split; assumption.
Qed.
(** Groups with quantifiers. *)
Theorem C72_group : forall V repr_list q n z mn mx, env_ok V -> parse V (new_parser (default_cfg true)) q = Ok n -> q_class n <> CQueryWithWithin ->
  lex_errors z = [] -> quantified (lx_tokens (lexemes z)) mn mx ->
  (forall t, In t (lx_tokens (lexemes z)) -> t_type t = INTEGER -> int_ok (e_penv V) (t_text t)) ->
  (forall wae l, complaints V repr_list q wae l -> complaints V repr_list (u "(" ++ q ++ u ")" ++ z) wae (map (moved_detail 1) l)) /\
  (forall wae b, verdict V repr_list q wae b -> verdict V repr_list (u "(" ++ q ++ u ")" ++ z) wae b).
Proof.
  intros V repr_list q n z mn mx HV Hp1 Hc Hz Hq Hi. pose proof (C58_group V _ q n z mn mx HV Hp1 Hc Hz Hq Hi) as Hp.
  pose proof (one_part V repr_list (u "(") q (u ")" ++ z) n _ HV Hp1 Hp) as H. change (zlen (u "(")) with 1 in H. apply H.
  intros C. rewrite C37_compositional by discriminate. cbn [flat_map]. rewrite app_nil_r. apply findings_content.
Qed.
(** Within clauses. *)
Theorem C72_within : forall V repr_list q n w sc, env_ok V -> parse V (new_parser (default_cfg true)) q = Ok n -> q_class n <> CQueryWithWithin -> scope_word w sc ->
  (forall wae l, complaints V repr_list q wae l -> complaints V repr_list (q ++ u " within " ++ w) wae l) /\
  (forall wae b, verdict V repr_list q wae b -> verdict V repr_list (q ++ u " within " ++ w) wae b).
Proof.
  intros V repr_list q n w sc HV Hp1 Hc Hw. pose proof (C58_within V _ q n w sc HV Hp1 Hc Hw) as Hp.
  pose proof (one_part V repr_list [] q (u " within " ++ w) n _ HV Hp1 Hp) as H. change (zlen []) with 0 in H. rewrite move0 in H.
  destruct H as [A B]. { intros C. rewrite C37_compositional by discriminate. apply app_nil_r. }
  split; [|exact B]. intros wae l Hl. specialize (A wae l Hl). rewrite moved0 in A. exact A.
Qed.
Lemma preorder_part m n : In m (preorder n) -> forall x, In x (preorder m) -> In x (preorder n).
Proof.
  induction n as [p l ch IH] using qnode_ind'. cbn [preorder]. intros [<-|Hm] x Hx; [exact Hx|]. right. apply in_flat_map in Hm. destruct Hm as (c & Hc & Hm).
  apply in_flat_map. exists c. split; [exact Hc|]. rewrite Forall_forall in IH. exact (IH c Hc Hm x Hx).
Qed.
Lemma findings_part check m n : subnode m n -> forall x, In x (findings check m) -> In x (findings check n).
Proof.
  intros Hs x Hx. apply sub_in_preorder in Hs. unfold findings in *. apply in_flat_map in Hx. destruct Hx as (y & Hy & Hx). apply filter_In in Hy.
  apply in_flat_map. exists y. split; [|exact Hx]. apply filter_In. split; [|apply Hy]. exact (preorder_part m n Hs y (proj1 Hy)).
Qed.
Lemma findings_unwrapped check m : findings check (unwrapped m) = findings check m.
Proof.
  destruct m as [p l ch]. destruct p; try reflexivity. cbn [unwrapped]. destruct ch as [|c [|d ch]]; try reflexivity. rewrite C37_compositional by discriminate. cbn [flat_map]. rewrite app_nil_r. reflexivity.
Qed.
Lemma move_back k n : move_locs k (move_locs (- k) n) = n.
Proof.
  induction n as [p l ch IH] using qnode_ind'. cbn [move_locs]. f_equal.
  - destruct l as [[a b]|]; [|reflexivity]. cbn [option_map]. unfold move_loc. cbn [l_start l_stop]. do 2 f_equal; lia.
  - induction IH as [|c ch Hc _ IHl]; [reflexivity|]. cbn [map]. rewrite Hc, IHl. reflexivity.
Qed.
(** Parts: what [validate] complains about in the text of a part (a segment, group, sequence, ...), it complains about in
    the whole, in its place; so the parts of a valid query are valid. *)
Theorem C72_part : forall V repr_list q n m wae l, env_ok V -> parse V (new_parser (default_cfg true)) q = Ok n -> subnode m n ->
  In (q_class m) [CQuerySegment; CQueryGroup; CQuerySequence; CQueryDisjunction; CQueryWithWithin] ->
  complaints V repr_list q wae l ->
  exists pre s post l', q = pre ++ s ++ post /\ q_loc m = Some (mkLoc (zlen pre) (zlen pre + zlen s)) /\
    complaints V repr_list s wae l' /\ (forall d, In d l' -> In (moved_detail (zlen pre) d) l) /\
    (verdict V repr_list q wae true -> verdict V repr_list s wae true).
Proof.
  intros V repr_list q n m wae l HV Hp Hs Hc Hl. destruct (C58_part V _ q n m HV Hp Hs Hc) as (pre & s & post & Hq & Hps & Hloc).
  assert (Hin : forall sv d, In d (map (detail_of (Some s)) (of_sev sv (fnd repr_list (move_locs (- zlen pre) (unwrapped m))))) ->
    In (moved_detail (zlen pre) d) (map (detail_of (Some q)) (of_sev sv (fnd repr_list n)))).
  { intros sv d Hd. assert (Hd' : In (moved_detail (zlen pre) d) (map (moved_detail (zlen pre)) (map (detail_of (Some s)) (of_sev sv (fnd repr_list (move_locs (- zlen pre) (unwrapped m))))))) by (apply in_map; exact Hd).
    pose proof (details_moved V HV s _ repr_list (plain_cfg false false) Hps pre post sv) as HE. pose proof (eq_ind_r (fun L => In (moved_detail (zlen pre) d) L) Hd' HE) as Hd2. clear Hd'. rename Hd2 into Hd'. cbv beta in Hd'. rewrite move_back, findings_unwrapped, <- Hq in Hd'.
    apply in_map_iff in Hd'. destruct Hd' as (x & Hx & Hf). apply in_map_iff. exists x. split; [exact Hx|]. unfold of_sev in *. apply filter_In in Hf. apply filter_In. split; [|apply Hf].
    eapply findings_part; [exact Hs|apply Hf]. }
  exists pre, s, post. pose proof (C45_findings V repr_list s wae _ Hps) as Hls. eexists. split; [exact Hq|]. split; [exact Hloc|]. split; [exact Hls|]. split.
  - intros d Hd. destruct wae.
    + rewrite (complaints_all _ _ _ _ Hp) in Hl. subst l. rewrite (checks_modes repr_list false true false false) in Hd. apply in_app_or in Hd. apply in_or_app. destruct Hd as [Hd|Hd]; [left|right]; apply Hin; exact Hd.
    + rewrite (complaints_errors _ _ _ _ Hp) in Hl. subst l. rewrite app_nil_r in Hd. apply Hin. exact Hd.
  - intros Hv. apply (verdict_parsed _ _ _ _ _ _ Hp) in Hv. apply (verdict_parsed _ _ _ _ _ _ Hps). symmetry in Hv |- *. rewrite <- (fine_move wae repr_list (plain_cfg false wae) (zlen pre)), move_back, findings_unwrapped.
    unfold fine in *. rewrite forallb_forall in *. intros x Hx. apply Hv. eapply findings_part; eassumption.
Qed.

(** ** Witnesses *)
Example C72_witness :
  let c q l := complaints some_env (fun _ => []) (u q) true l in
  let e m a b f := mkErr (u m) (Some (u "validation-error")) (Some (PosLoc (mkLoc a b))) (Some (u f)) in
  let w m a b f := mkErr (u m) (Some (u "validation-warning")) (Some (PosLoc (mkLoc a b))) (Some (u f)) in
  let bad := "Unknown layer identifier 'foo'!"%string in let old := "Usage of legacy(?) layer 'word'. Did you mean 'text' instead?"%string in
  c "[foo='a'|word='b']"%string [e bad 1 8 "foo='a'"%string; w old 9 17 "word='b'"%string] /\
  c "[word='c']"%string [w old 1 9 "word='c'"%string] /\
  c "[foo='a'|word='b']|[word='c']"%string [e bad 1 8 "foo='a'"%string; w old 9 17 "word='b'"%string; w old 20 28 "word='c'"%string] /\
  c "[word='c'][foo='a'|word='b']"%string [e bad 11 18 "foo='a'"%string; w old 1 9 "word='c'"%string; w old 19 27 "word='b'"%string] /\
  c "([word='c'])+"%string [w old 2 10 "word='c'"%string] /\ c "[word='c'] within s"%string [w old 1 9 "word='c'"%string] /\
  c "[foo = 'a'|word='b']"%string [e bad 1 10 "foo = 'a'"%string; w old 11 19 "word='b'"%string] /\
  verdict some_env (fun _ => []) (u "[word='c']") false true /\ verdict some_env (fun _ => []) (u "[foo='c']") false false.
Proof. vm_compute. repeat split; reflexivity. Qed.
Print Assumptions C72_verdict. Print Assumptions C72_same. Print Assumptions C72_complaints. Print Assumptions C72_insert. Print Assumptions C72_alternatives. Print Assumptions C72_sequence.
Print Assumptions C72_group. Print Assumptions C72_within. Print Assumptions C72_part.
