(** Property C56: the documented reading of a query, and exactly when the parser returns it. *)
From Coq Require Import String Sorted.
From Verif Require Import Base Regex LexRules Lexer Grammar Antlr Ast Builder Parser ModelTests LexSpec LitSpec
  GramSpec GramFacts ValueSpec ValueFacts SpellSpec BuilderFacts BuilderRules ParseSpec ParseFacts SimFacts LevelFacts SelFacts PrecFacts
  TreeSpec TreeFacts SitFacts LevelSpec LevelThm QuerySpec ConfigSpec ConfigFacts PropsLex PropsParse PropsConfig PropsTree PropsPrec PropsQuery ReadSpec ReadFacts ReadQuery ReadParse ReadTop ReadStrat.
Local Open Scope Z_scope.

Definition same_reading (C C' : pcfg) : Prop :=
  default_identifier C = default_identifier C' /\ default_operator C = default_operator C' /\
  unicode_normalization_form C = unicode_normalization_form C'.
Section Transport.
  Variables (E : penv) (C C' : pcfg).
  Hypothesis HC : same_reading C C'.
  Lemma regex_transport ts v fl : sp_regex E C ts v fl -> sp_regex E C' ts v fl.
  Proof.
    intros H. assert (Hn : forall v, normalised E C v = normalised E C' v) by (intros w; unfold normalised; destruct HC as (_ & _ & ->); reflexivity).
    inversion H; subst; rewrite Hn; [apply sr_plain|apply sr_flags]; assumption.
  Qed.
  Lemma level_transport :
    (forall ts n, rd_level E C ts n -> rd_level E C' ts n) /\ (forall ts n, rd_terms E C ts n -> rd_terms E C' ts n) /\
    (forall ts n, rd_term E C ts n -> rd_term E C' ts n) /\ (forall ts n, rd_factors E C ts n -> rd_factors E C' ts n) /\
    (forall ts n, rd_factor E C ts n -> rd_factor E C' ts n).
  Proof.
    apply (rd_level_mutind E C (fun ts n => rd_level E C' ts n) (fun ts n => rd_terms E C' ts n) (fun ts n => rd_term E C' ts n) (fun ts n => rd_factors E C' ts n) (fun ts n => rd_factor E C' ts n)); intros.
    - apply rl_one; assumption.
    - apply rl_or; assumption.
    - apply rts_one; assumption.
    - apply rts_more; assumption.
    - apply rt_one; assumption.
    - apply rt_and; assumption.
    - apply rfs_one; assumption.
    - apply rfs_more; assumption.
    - apply rf_basic; auto using regex_transport.
    - apply rf_group; assumption.
    - apply rf_not; assumption.
  Qed.
  Lemma item_transport :
    (forall ts n, rd_item E C ts n -> rd_item E C' ts n) /\ (forall ts n, rd_seq E C ts n -> rd_seq E C' ts n) /\
    (forall ts n, rd_operand E C ts n -> rd_operand E C' ts n) /\ (forall ts n, rd_operands E C ts n -> rd_operands E C' ts n) /\
    (forall ts n, rd_content E C ts n -> rd_content E C' ts n).
  Proof.
    apply (rd_item_mutind E C (fun ts n => rd_item E C' ts n) (fun ts n => rd_seq E C' ts n) (fun ts n => rd_operand E C' ts n) (fun ts n => rd_operands E C' ts n) (fun ts n => rd_content E C' ts n)); intros.
    - destruct HC as (-> & -> & _). apply ri_literal; auto using regex_transport.
    - apply ri_wildcard; assumption.
    - apply ri_segment; try assumption. apply (proj1 level_transport). assumption.
    - apply ri_group; assumption.
    - apply rq_one; assumption.
    - apply rq_more; assumption.
    - apply ro_segment; assumption.
    - apply ro_seq; assumption.
    - apply ros_one; assumption.
    - apply ros_more; assumption.
    - apply rc_seq; assumption.
    - apply rc_or; assumption.
  Qed.
  Lemma query_transport ts n : rd_query E C ts n -> rd_query E C' ts n.
  Proof.
    assert (M : forall ts n, rd_main E C ts n -> rd_main E C' ts n).
    { intros t m H. inversion H; subst; [apply rm_item|apply rm_seq|apply rm_or]; try assumption; [apply (proj1 item_transport)|apply (proj1 (proj2 item_transport))|apply (proj1 (proj2 (proj2 (proj2 item_transport))))]; assumption. }
    intros H. inversion H; subst; [apply ry_plain|apply ry_within]; auto.
  Qed.
End Transport.

Lemma erase_nots n : nots_of (erase n) = nots_of n.
Proof.
  induction n as [p l ch IH] using qnode_ind'. destruct p; try reflexivity. destruct ch as [|c [|c' ch]]; try reflexivity. cbn. f_equal. inversion IH; subst. assumption.
Qed.
Lemma erase_shape n : tree_shape (erase n) = tree_shape n.
Proof.
  assert (F : forall t, map nots_of (factors_of (erase t)) = map nots_of (factors_of t)).
  { intros [p l ch]. assert (H : map nots_of (map erase ch) = map nots_of ch) by (rewrite map_map; apply map_ext; apply erase_nots).
    pose proof (erase_nots (QN p l ch)) as H1. unfold factors_of. cbn [erase q_payload q_children] in *. destruct p; cbn [map] in *; rewrite ?H1; auto. }
  unfold tree_shape. destruct n as [p l ch]. unfold terms_of. cbn [erase q_payload q_children].
  assert (H1 : map (fun t => map nots_of (factors_of t)) [erase (QN p l ch)] = map (fun t => map nots_of (factors_of t)) [QN p l ch]) by (cbn [map]; rewrite F; reflexivity).
  destruct p; try exact H1. rewrite map_map. apply map_ext. exact F.
Qed.
Lemma with_locs_twice b n : erase (with_locs b n) = erase n.
Proof.
  destruct b; [reflexivity|]. cbn [with_locs]. induction n as [p l ch IH] using qnode_ind'. cbn. f_equal. rewrite map_map. apply map_ext_in. rewrite Forall_forall in IH. exact IH.
Qed.
Lemma expr_no_dev c i : q_class c = CExpression \/ q_class c = CExpressionWildcard -> ~ deviates (tree_shape c) i.
Proof. destruct c as [p l ch]. intros [H|H] [Hl _]; destruct p; try discriminate H; cbn in Hl; lia. Qed.

(** The parser with the same settings but with source locations. *)
Definition with_locations (P : qparser) : qparser :=
  new_parser (mkCfg (default_identifier (qp_cfg P)) (default_operator (qp_cfg P)) (unicode_normalization_form (qp_cfg P)) true).
Lemma with_locations_read P : same_reading (qp_cfg P) (qp_cfg (with_locations P)) /\ same_reading (qp_cfg (with_locations P)) (qp_cfg P).
Proof. repeat split. Qed.

Lemma read_back V P q a : env_ok V -> enableSourceLocations (qp_cfg P) = true -> parse V P q = Ok a -> rd_query (e_penv V) (qp_cfg P) (tokens q) a -> no_deviation a.
Proof.
  intros HV Hon Hp Ha m c Hm Hc Hch i. assert (Hd : documented m) by (eapply documented_sub; [exact Hm|]; right; right; right; left; eapply read_qstrat; exact Ha).
  destruct (class_eq_dec (q_class c) CExpression) as [He|He]; [apply expr_no_dev; auto|].
  destruct (class_eq_dec (q_class c) CExpressionWildcard) as [Hw|Hw]; [apply expr_no_dev; auto|].
  destruct (documented_level m c Hd Hc Hch) as [Hs|Hs]; [|contradiction].
  assert (Hl : level_of m c) by (split; [exact Hch|]; destruct Hc as [Hc|Hc]; [left; exact Hc|right; auto]).
  destruct (C19_exact V P q a m c HV Hp Hm Hl) as (pre & l & te & r & post & c0 & Ht & _ & Hcc & Hsp & Hx). rewrite Hon in Hcc. cbn [with_locs] in Hcc. subst c0.
  assert (Hr : rd_level (e_penv V) (qp_cfg P) te c) by (apply (proj1 (proj1 (strat_read _ _) _ _ Hsp)); exact Hs).
  rewrite <- (rd_level_shape _ _ _ _ Hr). apply Hx. apply rd_level_tb. exact Hr.
Qed.

(** C56.  Every sequence of tokens has at most one reading. *)
Theorem C56_unique : forall E C ts a b, rd_query E C ts a -> rd_query E C ts b -> a = b.
Proof. exact rd_query_unique. Qed.

(** Every accepted query has a reading, and only such queries (numbers within the digit limit). *)
Theorem C56_accepted : forall V P q, env_ok V ->
  (exists n, parse V P q = Ok n) <->
  (lex_errors q = [] /\ (exists a, rd_query (e_penv V) (qp_cfg P) (tokens q) a) /\
   forall t, In t (tokens q) -> t_type t = INTEGER -> int_ok (e_penv V) (t_text t)).
Proof.
  intros V P q HV. rewrite (C02_meaningful_iff V P q HV). split; intros (H1 & (n & H2) & H3); (split; [exact H1|split; [|exact H3]]).
  - eapply query_read. exact H2.
  - exists n. apply rd_query_sound. exact H2.
Qed.

(** The result is the reading, exactly if no level of the reading is one of the deviating ones. *)
Theorem C56_exact : forall V P q n a, env_ok V -> parse V P q = Ok n -> rd_query (e_penv V) (qp_cfg P) (tokens q) a ->
  (n = (if enableSourceLocations (qp_cfg P) then a else erase a) <-> no_deviation a).
Proof.
  intros V P q n a HV Hp Ha. destruct (enableSourceLocations (qp_cfg P)) eqn:Hon.
  - split; [intros ->; eapply read_back; eassumption|]. intros Hd. eapply read_on; eassumption.
  - set (P1 := with_locations P). destruct (C24_locations_only V P1 P q HV eq_refl Hon) as (_ & H2 & _ & _).
    destruct (H2 n Hp) as (n1 & Hp1 & ->).
    assert (Ha1 : rd_query (e_penv V) (qp_cfg P1) (tokens q) a) by (apply (query_transport _ (qp_cfg P)); [repeat split|exact Ha]).
    split.
    + intros He. assert (n1 = a) as ->; [|eapply (read_back V P1); [exact HV|reflexivity|exact Hp1|exact Ha1]].
      destruct (C02_denoted V P1 q n1 HV Hp1) as (m & Hm & Hn1). cbn in Hn1. subst m.
      eapply C56_unique; [|exact Ha1]. apply qstrat_read; [exact Hm|]. rewrite <- qstrat_erase, He, qstrat_erase. eapply read_qstrat. exact Ha1.
    + intros Hd. f_equal. eapply (read_on V P1); [exact HV|reflexivity|exact Hp1|exact Ha1|exact Hd].
Qed.

(** A check on the result alone: the result is the reading exactly if it is a documented tree
    ([qstrat]: no operator of a level sits below one that binds stronger, lone operands as documented). *)
Theorem C56_check : forall V P q n, env_ok V -> parse V P q = Ok n ->
  ((exists a, rd_query (e_penv V) (qp_cfg P) (tokens q) a /\ n = if enableSourceLocations (qp_cfg P) then a else erase a) <-> qstrat n = true).
Proof.
  intros V P q n HV Hp. destruct (C02_denoted V P q n HV Hp) as (m & Hm & Hn).
  assert (Hq : forall b x, qstrat (if b : bool then x else erase x) = qstrat x) by (intros [|] x; [reflexivity|apply qstrat_erase]).
  split.
  - intros (a & Ha & ->). rewrite Hq. eapply read_qstrat. exact Ha.
  - intros Hs. exists m. split; [|exact Hn]. apply qstrat_read; [exact Hm|]. rewrite Hn, Hq in Hs. exact Hs.
Qed.

(** The reading of the sample query has no deviating level; that of the C18 counterexample has one. *)
Definition default_parser : qparser := new_parser (default_cfg true).
Definition documented_result (q : pystr) : option bool :=
  match parse some_env default_parser q with Ok n => Some (qstrat n) | _ => None end.
Lemma documented_parsed q b : documented_result q = Some b -> exists n, parse some_env default_parser q = Ok n /\ qstrat n = b.
Proof. unfold documented_result. destruct (parse some_env default_parser q) as [n|e]; [|discriminate]. intros H. injection H as H. eauto. Qed.
Lemma sample_documented : documented_result sample_query = Some true.
Proof. vm_compute. reflexivity. Qed.
Definition deviating_query : pystr := u "[a='x' & !b='y' | c='z' | d='w']".
Lemma deviating_documented : documented_result deviating_query = Some false.
Proof. vm_compute. reflexivity. Qed.
Lemma read_witness q : documented_result q = Some true -> exists n a, parse some_env default_parser q = Ok n /\
  rd_query (e_penv some_env) (qp_cfg default_parser) (tokens q) a /\ no_deviation a /\ n = a.
Proof.
  intros H. destruct (documented_parsed _ _ H) as (n & Hp & Hs). destruct (proj2 (C56_check _ _ _ _ some_env_ok Hp) Hs) as (a & Ha & Hn).
  exists n, a. pose proof (C56_exact _ _ _ _ _ some_env_ok Hp Ha) as Hx. split; [exact Hp|]. split; [exact Ha|]. split; [apply Hx; exact Hn|exact Hn].
Qed.
Example C56_witness : exists n a, parse some_env default_parser sample_query = Ok n /\
  rd_query (e_penv some_env) (qp_cfg default_parser) (tokens sample_query) a /\ no_deviation a /\ n = a.
Proof. exact (read_witness _ sample_documented). Qed.
Lemma deviating_witness q : documented_result q = Some false -> exists n a, parse some_env default_parser q = Ok n /\
  rd_query (e_penv some_env) (qp_cfg default_parser) (tokens q) a /\ ~ no_deviation a /\ n <> a.
Proof.
  intros H. destruct (documented_parsed _ _ H) as (n & Hp & Hs). destruct (proj1 (C56_accepted _ _ _ some_env_ok) (ex_intro _ n Hp)) as (_ & (a & Ha) & _).
  exists n, a. pose proof (C56_exact _ _ _ _ _ some_env_ok Hp Ha) as Hx. split; [exact Hp|]. split; [exact Ha|].
  assert (Hne : n <> a). { intros He. rewrite He in Hs. pose proof (read_qstrat _ _ _ _ Ha) as Hq. congruence. }
  split; [|exact Hne]. intros Hd. apply Hne. exact (proj2 Hx Hd).
Qed.
Example C56_witness_deviating : exists n a, parse some_env default_parser deviating_query = Ok n /\
  rd_query (e_penv some_env) (qp_cfg default_parser) (tokens deviating_query) a /\ ~ no_deviation a /\ n <> a.
Proof. exact (deviating_witness _ deviating_documented). Qed.
