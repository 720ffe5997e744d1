(** C76: validation under two interpreters. *)
From Coq Require Import String.
From Verif Require Import Base Regex LexRules Lexer Grammar Antlr Ast Builder Parser Validation ModelTests LexSpec LitSpec ValueSpec
  SpellSpec BuilderFacts ParseSpec ParseFacts TreeSpec SitFacts AccessSpec ValidSpec PropsParse PropsTree PropsAccess PropsVisit ValidFacts PropsValid MessageFacts PropsValidate
  PropsRead LayoutSpec ComposeSpec VComposeSpec VComposeFacts PropsVCompose SynSpec SynFacts PropsSyn PropsSynV PortSpec PropsPort.
Local Open Scope Z_scope.

Lemma both_same V V' q n n' : env_ok V -> env_ok V' ->
  (forall f s, env_normalize (e_penv V) f s = env_normalize (e_penv V') f s) ->
  parse V (new_parser (default_cfg true)) q = Ok n -> parse V' (new_parser (default_cfg true)) q = Ok n' -> n' = n.
Proof. intros HV HV' He. apply (C76_same V V' (new_parser (default_cfg true)) q n n' HV HV'). right. exact He. Qed.

(** Interpreters with the same normalisation that both accept a query give it the same verdict ... *)
Theorem C76_verdict : forall V V' repr_list q n n' wae b, env_ok V -> env_ok V' ->
  (forall f s, env_normalize (e_penv V) f s = env_normalize (e_penv V') f s) ->
  parse V (new_parser (default_cfg true)) q = Ok n -> parse V' (new_parser (default_cfg true)) q = Ok n' ->
  verdict V repr_list q wae b <-> verdict V' repr_list q wae b.
Proof.
  intros V V' repr_list q n n' wae b HV HV' He Hp Hp'. pose proof (both_same V V' q n n' HV HV' He Hp Hp') as ->.
  rewrite (verdict_parsed _ _ _ _ _ _ Hp), (verdict_parsed _ _ _ _ _ _ Hp'). reflexivity.
Qed.
(** ... and the same complaints. *)
Theorem C76_complaints : forall V V' repr_list q n n' wae l, env_ok V -> env_ok V' ->
  (forall f s, env_normalize (e_penv V) f s = env_normalize (e_penv V') f s) ->
  parse V (new_parser (default_cfg true)) q = Ok n -> parse V' (new_parser (default_cfg true)) q = Ok n' ->
  complaints V repr_list q wae l <-> complaints V' repr_list q wae l.
Proof.
  intros V V' repr_list q n n' wae l HV HV' He Hp Hp'. pose proof (both_same V V' q n n' HV HV' He Hp Hp') as ->. destruct wae.
  - rewrite (complaints_all V repr_list q n Hp), (complaints_all V' repr_list q n Hp'). reflexivity.
  - rewrite (complaints_errors V repr_list q n Hp), (complaints_errors V' repr_list q n Hp'). reflexivity.
Qed.

(** Two interpreters that differ in everything but the normalisation, and a query with complaints. *)
Definition strict_env : env := mkEnv (mkPEnv (fun _ s => s) 2 false) (fun q => [mkCall (Some (eof_token q)) 7 7 (u "mismatched input")]).
Lemma strict_env_ok : env_ok strict_env.
Proof. exact other_env_ok. Qed.
Example C76_witness_validate : exists n n' l, (forall f s, env_normalize (e_penv some_env) f s = env_normalize (e_penv strict_env) f s) /\
  parse some_env (new_parser (default_cfg true)) foo1 = Ok n /\ parse strict_env (new_parser (default_cfg true)) foo1 = Ok n' /\
  complaints some_env (fun _ => []) foo1 true l /\ (1 < List.length l)%nat.
Proof.
  do 3 eexists. split; [reflexivity|]. split; [vm_compute; reflexivity|]. split; [vm_compute; reflexivity|].
  unfold complaints. split; [vm_compute; reflexivity|]. cbn. lia.
Qed.
Print Assumptions C76_verdict.
Print Assumptions C76_complaints.
