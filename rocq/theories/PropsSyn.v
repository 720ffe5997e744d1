(** C75: two queries have the same tree exactly if they are wordings of each other. *)
From Coq Require Import String.
From Verif Require Import Base Regex LexRules Lexer Grammar Antlr Ast Builder Parser ModelTests LexSpec LitSpec LexFacts LexThms
  GramSpec GramFacts ValueSpec ValueFacts SpellSpec BuilderFacts BuilderRules ParseSpec ParseFacts EvFacts TreeSpec TreeFacts SimFacts LevelSpec LevelThm
  QuerySpec QueryThm PropsParse PropsTree ReadSpec ReadFacts WriteFacts MeanSpec MeanFacts ConfigFacts PropsRead PropsConfig Outer Local ComposeSpec Compose ComposeWalk PropsCompose SynSpec SynFacts.
Local Open Scope Z_scope.

Lemma tokens_typed q : Forall typed (lx_tokens (lexemes q)).
Proof.
  rewrite Forall_forall. intros t Ht. destruct (token_at q t Ht) as (before & after & _ & _ & _ & _ & _ & _ & _ & _ & Hf & _). exact Hf.
Qed.
Lemma tokens_removelast q : removelast (tokens q) = lx_tokens (lexemes q).
Proof. rewrite tokens_split, removelast_app by discriminate. cbn [removelast]. apply app_nil_r. Qed.

Section Transport.
  Variables (E : penv) (C C' : pcfg).
  Hypothesis HC : same_reading C C'.
  Lemma expr_transport ts n : sp_expr E C ts n -> sp_expr E C' ts n.
  Proof.
    revert ts n. apply (sp_expr_mutind E C (fun ts n => sp_expr E C' ts n) (fun sep ts ns => sp_exprs E C' sep ts ns)); intros.
    - apply se_basic; auto. eapply regex_transport; eassumption.
    - apply se_group; assumption.
    - apply se_not; assumption.
    - apply se_and; assumption.
    - apply se_or; assumption.
    - apply ses_one; assumption.
    - apply ses_more; assumption.
  Qed.
  Lemma asks_transport ts p : asks_for E C ts p -> asks_for E C' ts p.
  Proof.
    intros H. destruct H as [tr v fl Hr|l ta o tr r q i op v fl Hl Ha Ho Hr Hr'].
    - destruct HC as (-> & -> & _). apply af_literal. eapply regex_transport; eassumption.
    - apply af_brackets; auto. eapply regex_transport; eassumption.
  Qed.
  Lemma inside_transport x x' : same_inside E C x x' -> same_inside E C' x x'.
  Proof.
    induction 1 as [|k k' x x' Hk Hk' _ IH|ta o tr ta' o' tr' q i op v fl x x' A A' O O' T T' _ IH]; [constructor|apply si_mark; assumption|].
    eapply si_basic; eauto; eapply regex_transport; eassumption.
  Qed.
  Lemma syn_transport :
    (forall x x', same_item E C x x' -> same_item E C' x x') /\ (forall x x', same_items E C x x' -> same_items E C' x x') /\
    (forall x x', same_alts E C x x' -> same_alts E C' x x').
  Proof.
    apply (same_item_mutind E C (fun x x' => same_item E C' x x') (fun x x' => same_items E C' x x') (fun x x' => same_alts E C' x x')); intros.
    - eapply sit_asks; eauto using asks_transport.
    - eapply sit_any; eauto.
    - eapply sit_inside; eauto using inside_transport. match goal with H : exists e, _ |- _ => destruct H as (e & H); exists e; apply expr_transport; exact H end.
    - eapply sit_group; eauto.
    - apply sis_one; assumption.
    - apply sis_more; assumption.
    - apply sas_one; assumption.
    - apply sas_more; assumption.
  Qed.
  Lemma same_query_transport x x' : same_query E C x x' -> same_query E C' x x'.
  Proof. intros H. destruct H; [apply sqr_plain|eapply sqr_within]; eauto; apply syn_transport; assumption. Qed.
End Transport.

(** The same parser with source locations on. *)
Definition loud (P : qparser) : qparser := if enableSourceLocations (qp_cfg P) then P else with_locations P.
Lemma loud_on P : enableSourceLocations (qp_cfg (loud P)) = true.
Proof. unfold loud. destruct (enableSourceLocations (qp_cfg P)) eqn:H; [exact H|reflexivity]. Qed.
Lemma loud_same P : same_reading (qp_cfg P) (qp_cfg (loud P)) /\ same_reading (qp_cfg (loud P)) (qp_cfg P).
Proof. unfold loud. destruct (enableSourceLocations (qp_cfg P)); [repeat split|apply with_locations_read]. Qed.
Lemma to_loud V P q n : env_ok V -> parse V P q = Ok n -> exists n1, parse V (loud P) q = Ok n1 /\ erase n1 = erase n.
Proof.
  intros HV Hp. unfold loud. destruct (enableSourceLocations (qp_cfg P)) eqn:Hb; [eauto|].
  destruct (proj1 (lift_off V P q HV Hb) n Hp) as (n1 & H1 & ->). exists n1. split; [exact H1|]. symmetry. apply erase_erase.
Qed.
Lemma from_loud V P q n : env_ok V -> parse V (loud P) q = Ok n -> exists n1, parse V P q = Ok n1 /\ erase n1 = erase n.
Proof.
  intros HV. unfold loud. destruct (enableSourceLocations (qp_cfg P)) eqn:Hb; [eauto|]. intros Hp.
  apply (proj2 (lift_off V P q HV Hb)) in Hp. eexists. split; [exact Hp|]. apply erase_erase.
Qed.

(** ** C75 *)
(** A wording of an accepted query is accepted, with the same tree up to source locations. *)
Theorem C75_wordings : forall (V : env) (P : qparser) (q q' : pystr) (n : qnode), env_ok V ->
  parse V P q = Ok n -> lex_errors q' = [] ->
  (forall t, In t (tokens q') -> t_type t = INTEGER -> int_ok (e_penv V) (t_text t)) ->
  same_query (e_penv V) (qp_cfg P) (tokens q) (tokens q') ->
  exists n', parse V P q' = Ok n' /\ erase n' = erase n.
Proof.
  intros V P q q' n HV Hp Hl Hi Hs. destruct (to_loud V P q n HV Hp) as (n1 & H1 & He).
  apply (same_query_transport _ _ _ (proj1 (loud_same P))) in Hs.
  assert (Hc : conds (e_penv V) (tokens q)).
  { destruct (parse_ok_inv V P q n HV Hp) as (m & [_ Ht] & _). apply texts_ok_conds. exact Ht. }
  destruct (same_query_tree _ _ _ _ Hs) as (m & m' & Hm & Hm' & Hx); try (rewrite tokens_removelast; apply tokens_typed); [exact Hc|].
  apply (parse_iff_o V (loud P) q n1 HV (loud_on P)) in H1. destruct H1 as (_ & _ & H1).
  assert (Hmn : n1 = m) by (eapply (o_query_unique (e_penv V) (qp_cfg (loud P)) (lv (e_penv V) (qp_cfg (loud P)))); [apply lv_sp|apply lv_fun|exact H1|exact Hm]).
  assert (Hp' : parse V (loud P) q' = Ok m') by (apply (parse_iff_o V (loud P) q' m' HV (loud_on P)); auto).
  destruct (from_loud V P q' m' HV Hp') as (n' & Hn' & He'). exists n'. split; [exact Hn'|]. congruence.
Qed.
(** Two accepted queries have the same tree, source locations aside, exactly if they are wordings of each other. *)
Theorem C75_same_tree : forall (V : env) (P : qparser) (q q' : pystr) (n n' : qnode), env_ok V ->
  parse V P q = Ok n -> parse V P q' = Ok n' ->
  (erase n = erase n' <-> same_query (e_penv V) (qp_cfg P) (tokens q) (tokens q')).
Proof.
  intros V P q q' n n' HV Hp Hp'. split.
  - intros He. destruct (to_loud V P q n HV Hp) as (n1 & H1 & He1). destruct (to_loud V P q' n' HV Hp') as (n1' & H1' & He1').
    apply (parse_iff_o V (loud P) q n1 HV (loud_on P)) in H1. apply (parse_iff_o V (loud P) q' n1' HV (loud_on P)) in H1'.
    apply (same_query_transport _ _ _ (proj2 (loud_same P))). eapply tree_query; [apply H1|apply H1'|congruence].
  - intros Hs. destruct (proj1 (C02_meaningful_iff V P q' HV) (ex_intro _ n' Hp')) as (Hl & _ & Hi).
    destruct (C75_wordings V P q q' n HV Hp Hl Hi Hs) as (m & Hm & He). congruence.
Qed.
(** Different wordings of one query, and a near miss. *)
Definition wording1 : pystr := u "'a'? ""b""/ci | ([] [w='c' & (x:y!='d')]{2,2}) within s".
Definition wording2 : pystr := u "[text=""\x61""]{0,1}[text='\x62'/ci]{1} | ([]{1,1}[ w = ""c"" & (x:y != 'd') ]{2}){1} within sentence".
Definition wording3 : pystr := u "'a'? ""b""/ci | ([] [w='c' & x:y!='d']{2,2}) within s".
Example C75_witness :
  same_query (e_penv some_env) (qp_cfg default_parser) (tokens wording1) (tokens wording2) /\
  ~ same_query (e_penv some_env) (qp_cfg default_parser) (tokens wording1) (tokens wording3).
Proof.
  destruct (parse some_env default_parser wording1) as [n1|m] eqn:H1; [|vm_compute in H1; discriminate].
  destruct (parse some_env default_parser wording2) as [n2|m] eqn:H2; [|vm_compute in H2; discriminate].
  destruct (parse some_env default_parser wording3) as [n3|m] eqn:H3; [|vm_compute in H3; discriminate].
  split.
  - apply (C75_same_tree some_env default_parser wording1 wording2 n1 n2 some_env_ok H1 H2).
    vm_compute in H1. injection H1 as <-. vm_compute in H2. injection H2 as <-. vm_compute. reflexivity.
  - intros H. apply (C75_same_tree some_env default_parser wording1 wording3 n1 n3 some_env_ok H1 H3) in H. revert H.
    vm_compute in H1. injection H1 as <-. vm_compute in H3. injection H3 as <-. vm_compute. discriminate.
Qed.
Print Assumptions C75_wordings.
Print Assumptions C75_same_tree.
