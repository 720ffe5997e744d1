(** C50: [str(node)]. *)
From Coq Require Import String.
From Verif Require Import Base Regex LexRules Lexer Grammar Antlr Ast Builder Parser ModelTests LexSpec LexFacts LexThms
  GramSpec GramFacts LitSpec ValueSpec ValueFacts SpellSpec TokenSpec TokenFacts TreeSpec AccessSpec ParseSpec ParseFacts PropsLex PropsParse PropsTree StrFacts.
Local Open Scope Z_scope.

(** Names as they occur in queries: no space, no colon. *)
Definition plain_name (s : pystr) : Prop := ~ In 32%N s /\ ~ In 58%N s.
(** No regex of the tree contains a double quote or a backslash. *)
Definition plain_regexes (n : qnode) : Prop :=
  forall m q i o r f, subnode m n -> q_payload m = PExpr q i o r f -> ~ In 34%N r /\ ~ In 92%N r.

Lemma plain_name_ok s : plain_name s -> name_ok s.
Proof. intros [A B]. apply Forall_forall. intros c Hc. split; intros ->; contradiction. Qed.
Lemma name_text q t : In t (lx_tokens (lexemes q)) -> name_tok t -> t_text t <> [] /\ name_ok (t_text t).
Proof.
  intros Hin Hn. destruct (token_at q t Hin) as (b & a & _ & _ & _ & Hne & _ & _ & _ & _ & Hf & _). split; [exact Hne|].
  apply first_rule_preferred in Hf. destruct Hf as [Hs _].
  assert (Hfl : forall c, flag_meaning c <> None -> c <> 32%N /\ c <> 58%N) by (intros c Hc; split; intros ->; apply Hc; reflexivity).
  destruct Hn as [Hn|[Hn|[Hn|[Hn|[]]]]]; rewrite <- Hn in Hs; cbn [spelled] in Hs.
  - destruct Hs as (c & w & -> & Hc & Hw & _). constructor; [unfold letter in Hc; lia|]. eapply Forall_impl; [|exact Hw].
    cbn. unfold letter, digit. intros x Hx. lia.
  - rewrite Hs. repeat constructor; discriminate.
  - destruct Hs as (sc & Hs). destruct Hs; repeat constructor; discriminate.
  - destruct Hs as [_ Hs]. eapply Forall_impl; [|exact Hs]. exact Hfl.
Qed.
Lemma parsed_showable V P q n : env_ok V -> parse V P q = Ok n -> plain_name (default_identifier (qp_cfg P)) -> plain_regexes n -> showable n.
Proof.
  intros HV Hp Hd Hr m Hm. pose proof (C15_shape V P q n m HV Hp Hm) as Hs. destruct (q_payload m) eqn:Hpl; cbn [shape_ok str_ok] in *; auto.
  - split; [exact Hs|]. destruct (Hr m _ _ _ _ _ Hm Hpl) as [R1 R2].
    destruct (expr_node V P q n m _ _ _ _ _ HV Hp Hm Hpl) as (pre & tr & post & Hreg & _ & Hc).
    assert (Hfl : forall s, regex_flags = Some s -> flags_nonempty s = true).
    { intros s ->. assert (Htr : forall t, In t tr -> In t (lx_tokens (lexemes q))).
      { intros t Ht. destruct Hc as [(Hc & _)|(p & ta & o & s' & post' & -> & Hc & _)]; rewrite Hc, !in_app_iff; [auto|]. cbn. tauto. }
      inversion Hreg as [|k sl f v S Hk Hsl Hf Hv Hfd Hco]; subst. assert (Hin : In f (lx_tokens (lexemes q))) by (apply Htr; cbn; auto).
      pose proof (proj1 (token_text_ok q f Hin)) as Hok. rewrite Hf in Hok. cbn [text_ok] in Hok. destruct Hok as [Hne Hok]. destruct (t_text f) as [|c w] eqn:Htx; [congruence|].
      inversion Hok as [|? ? Hcf _]; subst. destruct (flags_denote_exists [c] (Forall_cons _ Hcf (Forall_nil _))) as (S1 & HS1).
      assert (Hx : exists fl, flag_meaning c = Some fl).
      { unfold is_flag_char in Hcf. cbn in Hcf. unfold flag_meaning. decompose [or] Hcf; subst; cbn; eauto. contradiction. }
      destruct Hx as (fl & Hfl). assert (Hy : flag_in fl s = true) by (apply Hfd; exists c; split; [rewrite ?Htx; left; reflexivity|exact Hfl]).
      unfold flags_nonempty. destruct fl; cbn in Hy; rewrite Hy; rewrite ?orb_true_r; reflexivity. }
    destruct Hc as [(_ & -> & -> & _ & _)|(p & ta & o & s & post' & -> & Hts & Hat & _)].
    + repeat split; auto; try discriminate. apply plain_name_ok. exact Hd.
    + assert (Hin : forall t, In t ta -> In t (lx_tokens (lexemes q))) by (intros t Ht; rewrite Hts, !in_app_iff; auto).
      destruct Hat as [i Hi|q0 c i Hq0 Hc Hi].
      * repeat split; auto; try discriminate. apply (name_text q i); [apply Hin; left; reflexivity|exact Hi].
      * repeat split; auto.
        -- injection H as <-. apply (name_text q q0); [apply Hin; left; reflexivity|exact Hq0].
        -- injection H as <-. apply (name_text q q0); [apply Hin; left; reflexivity|exact Hq0].
        -- apply (name_text q i); [apply Hin; cbn; auto|exact Hi].
  - destruct Hs as (c & Hs & _). eauto.
  - destruct Hs as (c & Hs & _). eauto.
  - destruct Hs as (c & Hs & Hc). exists c. split; [exact Hs|]. unfold expr_class in Hc. cbn in Hc. intuition (subst; discriminate).
Qed.

(** [str] of a parsed tree never raises. *)
Theorem C50_total : forall V P q n, env_ok V -> parse V P q = Ok n -> exists s, node_str n = Ok s.
Proof.
  intros V P q n HV Hp. assert (Hsh : forall m, subnode m n -> shape_ok (q_payload m) (map q_class (q_children m))) by (intros m Hm; exact (C15_shape V P q n m HV Hp Hm)).
  clear Hp. induction n as [p l ch IH] using qnode_ind'. rewrite node_str_eq.
  assert (Hs : exists ss, strs ch = Ok ss /\ List.length ss = List.length ch).
  { assert (Hc : forall c, In c ch -> exists s, node_str c = Ok s).
    { intros c Hc. rewrite Forall_forall in IH. apply (IH c Hc). intros m Hm. apply Hsh. econstructor; eassumption. }
    clear IH Hsh. induction ch as [|c ch IHch]; [exists []; auto|]. destruct (Hc c (or_introl eq_refl)) as (s & Hs).
    destruct IHch as (ss & Hss & Hl); [intros d Hd; apply Hc; right; exact Hd|]. exists (s :: ss). cbn [strs]. rewrite Hs, Hss. cbn. auto. }
  destruct Hs as (ss & -> & Hl). pose proof (Hsh _ (sub_here _)) as Hok. cbn [q_payload q_children] in Hok.
  destruct p; cbn; eauto; destruct Hok as (c & Hok & _); destruct ch; try discriminate; destruct ss; try discriminate; cbn; eauto.
Qed.
(** Trees with plain regexes are told apart by [str], with and without locations,
    even if they come from different parsers. *)
Theorem C50_injective : forall V V' P P' q q' n n' s, env_ok V -> env_ok V' ->
  parse V P q = Ok n -> parse V' P' q' = Ok n' ->
  plain_name (default_identifier (qp_cfg P)) -> plain_name (default_identifier (qp_cfg P')) ->
  plain_regexes n -> plain_regexes n' ->
  node_str n = Ok s -> node_str n' = Ok s -> n = n'.
Proof.
  intros V V' P P' q q' n n' s HV HV' Hp Hp' Hd Hd' Hr Hr' Hs Hs'.
  pose proof (parsed_showable V P q n HV Hp Hd Hr) as H. pose proof (parsed_showable V' P' q' n' HV' Hp' Hd' Hr') as H'.
  exact (proj1 (all_readable n H n' s s [] [] Hs H' Hs' I I eq_refl)).
Qed.
Lemma sub_in_preorder : forall n m, subnode m n -> In m (preorder n).
Proof.
  induction n as [p l ch IH] using qnode_ind'. intros m Hm. inversion Hm as [|? ? ? c Hc Hs]; subst; [left; reflexivity|].
  right. apply in_flat_map. exists c. split; [exact Hc|]. rewrite Forall_forall in IH. auto.
Qed.
(** C50 as first worded is false: line breaks and quotes are not displayed unambiguously. *)
Definition no_locs : qparser := new_parser (default_cfg false).
Theorem C50_refuted_backslash : exists n n' s,
  parse some_env no_locs (u "'\n'") = Ok n /\ parse some_env no_locs (u "'\\n'") = Ok n' /\ n <> n' /\ node_str n = Ok s /\ node_str n' = Ok s.
Proof. do 3 eexists. split; [vm_compute; reflexivity|]. split; [vm_compute; reflexivity|]. split; [discriminate|]. split; vm_compute; reflexivity. Qed.
Theorem C50_refuted_quote : exists n n' s,
  parse some_env no_locs (u "'a' 'x"")) (QuerySegment (Expression text Eq ""y'") = Ok n /\ parse some_env no_locs (u "'a' 'x' 'y'") = Ok n' /\
  n <> n' /\ node_str n = Ok s /\ node_str n' = Ok s.
Proof. do 3 eexists. split; [vm_compute; reflexivity|]. split; [vm_compute; reflexivity|]. split; [discriminate|]. split; vm_compute; reflexivity. Qed.
Definition plain_regex_b (n : qnode) : bool :=
  match q_payload n with PExpr _ _ _ r _ => forallb (fun c => negb ((c =? 34) || (c =? 92))%N) r | _ => true end.
Lemma plain_regexes_b n : forallb plain_regex_b (preorder n) = true -> plain_regexes n.
Proof.
  intros H m q i o r f Hm Hpl. rewrite forallb_forall in H. apply sub_in_preorder in Hm. specialize (H m Hm). unfold plain_regex_b in H. rewrite Hpl in H.
  rewrite forallb_forall in H. split; intros Hx; specialize (H _ Hx); discriminate H.
Qed.
Example C50_witness : exists n s, parse some_env no_locs (u "([x:pos='N.*'/i | !b=""c""]{2,} 'd')? within s") = Ok n /\ plain_regexes n /\ node_str n = Ok s /\
  s = u "(QueryWithWithin (QuerySegment @min=0 (QuerySequence (QuerySegment @min=2 @max=* (Or (Expression x:pos Eq ""N.*""/i) (Not (Expression b Eq ""c"")))) (QuerySegment (Expression text Eq ""d"")))) (SimpleWithin Sentence))".
Proof.
  do 2 eexists. split; [vm_compute; reflexivity|]. split; [apply plain_regexes_b; vm_compute; reflexivity|]. split; vm_compute; reflexivity.
Qed.
Print Assumptions C50_total. Print Assumptions C50_injective. Print Assumptions C50_refuted_backslash. Print Assumptions C50_refuted_quote.
