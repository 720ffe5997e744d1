(** C75: what [validate] says about wordings of one query. *)
From Coq Require Import String.
From Verif Require Import Base Regex LexRules Lexer Grammar Antlr Ast Builder Parser Validation ModelTests LexSpec
  SpellSpec BuilderFacts ParseSpec ParseFacts TreeSpec SitFacts AccessSpec ValidSpec PropsParse PropsTree PropsAccess PropsVisit ValidFacts PropsValid MessageFacts PropsValidate
  PropsRead LayoutSpec ComposeSpec VComposeSpec VComposeFacts PropsVCompose SynSpec SynFacts PropsSyn.
Local Open Scope Z_scope.

Definition erase_f (x : finding) : finding := mkFinding (f_sev x) (f_msg x) (erase (f_node x)).
Lemma preorder_erase n : preorder (erase n) = map erase (preorder n).
Proof.
  induction n as [p l ch IH] using qnode_ind'. cbn [erase preorder map]. f_equal. induction IH as [|c ch Hc _ IHl]; [reflexivity|].
  cbn [map flat_map]. rewrite map_app, Hc, IHl. reflexivity.
Qed.
Lemma checks_erase repr_list C n : expr_checks repr_list C (erase n) = map erase_f (expr_checks repr_list C n).
Proof. destruct n as [p l ch]. destruct p; try reflexivity. cbn [expr_checks erase]. rewrite map_map. reflexivity. Qed.
Lemma findings_erase repr_list C n : findings (expr_checks repr_list C) (erase n) = map erase_f (findings (expr_checks repr_list C) n).
Proof.
  unfold findings. rewrite preorder_erase. induction (preorder n) as [|m l IH]; [reflexivity|]. cbn [map filter]. rewrite erase_class.
  destruct (class_eq_dec (q_class m) CExpression); [|exact IH]. cbn [flat_map]. rewrite map_app, checks_erase, IH. reflexivity.
Qed.
Definition said (d : error_detail) : pystr * option pystr := (ed_message d, ed_type d).
Lemma said_same q q' s fs fs' : map erase_f fs = map erase_f fs' ->
  map said (map (detail_of q) (of_sev s fs)) = map said (map (detail_of q') (of_sev s fs')).
Proof.
  revert fs'. induction fs as [|x fs IH]; intros [|x' fs'] H; try discriminate H; [reflexivity|]. cbn [map] in H.
  injection H as Hs Hm _ H. specialize (IH fs' H). unfold of_sev in *. cbn [filter]. rewrite <- Hs. destruct (f_sev x) eqn:E, s; try exact IH; cbn [map]; f_equal; try exact IH; unfold said, detail_of; cbn; rewrite <- Hs, E, Hm; reflexivity.
Qed.
Lemma fine_erase wae fs fs' : map erase_f fs = map erase_f fs' -> fine wae fs = fine wae fs'.
Proof.
  revert fs'. induction fs as [|x fs IH]; intros [|x' fs'] H; try discriminate H; [reflexivity|]. cbn [map] in H.
  injection H as Hs Hm _ H. unfold fine in *. cbn [forallb]. rewrite (IH fs' H). unfold fatal. rewrite Hs. reflexivity.
Qed.
Lemma both_findings V repr_list C q q' n n' : env_ok V -> parse V (new_parser (default_cfg true)) q = Ok n -> parse V (new_parser (default_cfg true)) q' = Ok n' ->
  same_query (e_penv V) (default_cfg true) (tokens q) (tokens q') ->
  map erase_f (findings (expr_checks repr_list C) n) = map erase_f (findings (expr_checks repr_list C) n').
Proof.
  intros HV Hp Hp' Hs. pose proof (proj2 (C75_same_tree V (new_parser (default_cfg true)) q q' n n' HV Hp Hp') Hs) as He.
  rewrite <- !findings_erase, He. reflexivity.
Qed.

(** Wordings of one query get the same verdict ... *)
Theorem C75_verdict : forall V repr_list q q' n n' wae b, env_ok V ->
  parse V (new_parser (default_cfg true)) q = Ok n -> parse V (new_parser (default_cfg true)) q' = Ok n' ->
  same_query (e_penv V) (default_cfg true) (tokens q) (tokens q') ->
  verdict V repr_list q wae b <-> verdict V repr_list q' wae b.
Proof.
  intros V repr_list q q' n n' wae b HV Hp Hp' Hs. rewrite (verdict_parsed _ _ _ _ _ _ Hp), (verdict_parsed _ _ _ _ _ _ Hp').
  rewrite (fine_erase wae _ _ (both_findings V repr_list (plain_cfg false wae) q q' n n' HV Hp Hp' Hs)). reflexivity.
Qed.
(** ... and the same messages in the same order: complaints differ in position and fragment only. *)
Theorem C75_complaints : forall V repr_list q q' n n' wae l l', env_ok V ->
  parse V (new_parser (default_cfg true)) q = Ok n -> parse V (new_parser (default_cfg true)) q' = Ok n' ->
  same_query (e_penv V) (default_cfg true) (tokens q) (tokens q') ->
  complaints V repr_list q wae l -> complaints V repr_list q' wae l' ->
  map (fun d => (ed_message d, ed_type d)) l = map (fun d => (ed_message d, ed_type d)) l'.
Proof.
  intros V repr_list q q' n n' wae l l' HV Hp Hp' Hs Hl Hl'. pose proof (both_findings V repr_list (plain_cfg false false) q q' n n' HV Hp Hp' Hs) as Hf.
  change (map said l = map said l'). destruct wae.
  - apply (complaints_all V repr_list q n Hp) in Hl. apply (complaints_all V repr_list q' n' Hp') in Hl'. subst l l'. unfold fnd. rewrite !map_app. f_equal; apply said_same; exact Hf.
  - apply (complaints_errors V repr_list q n Hp) in Hl. apply (complaints_errors V repr_list q' n' Hp') in Hl'. subst l l'. apply said_same; exact Hf.
Qed.
(** Two wordings with findings. *)
Definition foo1 : pystr := u "[foo='a' & x-y='b'] within s".
Definition foo2 : pystr := u "[ foo = ""\x61"" & x-y=""b""]{1} within sentence".
Example C75_witness_validate :
  exists n n', parse some_env default_parser foo1 = Ok n /\ parse some_env default_parser foo2 = Ok n' /\
  same_query (e_penv some_env) (default_cfg true) (tokens foo1) (tokens foo2) /\
  exists l l', complaints some_env (fun _ => []) foo1 true l /\ complaints some_env (fun _ => []) foo2 true l' /\ (1 < List.length l)%nat /\ l <> l'.
Proof.
  do 2 eexists. split; [vm_compute; reflexivity|]. split; [vm_compute; reflexivity|]. split.
  - eapply (C75_same_tree some_env default_parser foo1 foo2); [exact some_env_ok|vm_compute; reflexivity|vm_compute; reflexivity|]. vm_compute. reflexivity.
  - unfold complaints. do 2 eexists. split; [vm_compute; reflexivity|]. split; [vm_compute; reflexivity|]. split; [cbn; lia|discriminate].
Qed.
Print Assumptions C75_verdict.
Print Assumptions C75_complaints.
