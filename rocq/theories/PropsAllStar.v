(** Property C61: the runtime's adaptive prediction. *)
From Coq Require Import String.
From Verif Require Import Base Regex LexRules Lexer Grammar Antlr Ast Builder Parser LexSpec LexFacts GramSpec GramFacts GenParser Atn AtnFacts AtnNets GenNet GenFacts GenPredict PropsLex TreeFacts PropsGen AllStar AllStarFacts AllStarLoop AllStarNet AllStarRun.
Local Open Scope Z_scope.

(** ** Specification *)
(** The rule a state of the network belongs to. *)
Definition in_rule (s r : Z) : Prop := exists q, nth_error (a_states parser_atn) (Z.to_nat s) = Some q /\ s_rule q = r.
(** [c] are the states (innermost first) in which rule [r] and its callers were invoked, up to a rule that nobody calls. *)
Inductive invoked : Z -> list Z -> Prop :=
| i_top r : (forall s q pr t, ~ In (RuleT q r pr, t) (out parser_atn s)) -> invoked r []
| i_call r n q pr t r' c : out parser_atn n = [(RuleT q r pr, t)] -> in_rule t r' -> invoked r' c -> invoked r (n :: c).

Lemma in_rule_of s r : in_rule s r -> rule_of parser_atn s = r.
Proof. intros (q & H & E). unfold rule_of. rewrite H. exact E. Qed.
Lemma in_follows s f : In f (follows parser_atn s) -> exists n q pr, In (RuleT q (rule_of parser_atn s) pr, f) (out parser_atn n).
Proof.
  unfold follows. intros H. apply in_flat_map in H. destruct H as ([n [l t]] & He & H). cbn [fst snd] in H. destruct l as [| |q r pr| | | |]; try contradiction. destruct (r =? rule_of parser_atn s) eqn:E; [|contradiction].
  apply Z.eqb_eq in E. subst r. destruct H as [<-|[]]. exists n, q, pr. unfold out. apply in_map_iff. eexists. split; [|apply filter_In; split; [exact He|apply Z.eqb_refl]]. reflexivity.
Qed.
Lemma invoked_legit r c : invoked r c -> forall s, rule_of parser_atn s = r -> legit parser_atn s (map (follow_of parser_atn) c).
Proof.
  induction 1 as [r Hn|r n q pr t r' c Ho Hr' Hi IH]; intros s E; cbn [map legit].
  - destruct (follows parser_atn s) as [|f l] eqn:Hf; [reflexivity|]. exfalso. destruct (in_follows s f) as (n & q & pr & Hin); [rewrite Hf; left; reflexivity|]. rewrite E in Hin. exact (Hn _ _ _ _ Hin).
  - assert (Hfo : follow_of parser_atn n = t) by (unfold follow_of; rewrite Ho; reflexivity). rewrite Hfo. split.
    + assert (Hin : In (RuleT q r pr, t) (out parser_atn n)) by (rewrite Ho; left; reflexivity). rewrite (follows_rule parser_atn s q); [|rewrite E; symmetry; eapply net_call; exact Hin].
      eapply follows_call; [exact net_call|exact Hin].
    + apply IH. apply in_rule_of. exact Hr'.
Qed.
Lemma to_eof_app w : ~ In EOF w -> to_eof (w ++ [EOF]).
Proof. induction w as [|x w IH]; intros H; cbn [app to_eof]; [left; auto|]. right. split; [intros ->; apply H; left; reflexivity|apply IH; intros Hi; apply H; right; exact Hi]. Qed.

(** ** C61 *)
(** SLL simulation with a switch to the full context on conflicts, as the runtime does it on the network of FCSParser.py,
    returns the least alternative from which the rest of the input can be read to its end - whenever there is one, for every
    decision, chain of calls and input. *)
Theorem C61_prediction : forall d s r c w i, nth_error (a_decisions parser_atn) d = Some s -> in_rule s r -> invoked r c -> ~ In EOF w ->
  least_alt parser_atn d c (w ++ [EOF]) i -> adaptive parser_atn d c (w ++ [EOF]) = Some i.
Proof.
  intros d s r c w i Hd Hs Hc Hw H. apply net_adaptive; [|apply to_eof_app; exact Hw|exact H]. intros t Ht. apply (invoked_legit r c Hc). unfold alternatives in Ht. rewrite Hd in Ht.
  apply in_map_iff in Ht. destruct Ht as ([l t'] & E & Hin). cbn [snd] in E. subst t'. rewrite (net_rule _ _ _ Hin). apply in_rule_of. exact Hs.
Qed.
(** Whatever it returns is one of the alternatives. *)
Theorem C61_range : forall d c w i, adaptive parser_atn d c w = Some i -> (1 <= i <= List.length (alternatives parser_atn d))%nat.
Proof. exact net_range. Qed.
(** The check in front of every decision lets every token pass that can come next. *)
Theorem C61_sync : syncs parser_atn (sync_passes parser_atn).
Proof. exact sync_syncs. Qed.
(** So the generated parser, run with these two, accepts exactly the queries of the grammar and builds the tree the model works with. *)
Lemma tokens_eof q : to_eof (types_of (tokens q)).
Proof.
  rewrite tokens_split. unfold types_of. rewrite map_app. apply to_eof_app. intros H. apply in_map_iff in H. destruct H as (t & E & Ht). destruct (C04_types q t Ht) as (_ & _ & _ & He & _). exact (He E).
Qed.
Theorem C61_accepts : forall q, conforms (tokens q) ->
  exists t, antlr_query (tokens q) = Some t /\ gen_query (adaptive parser_atn) (sync_passes parser_atn) (tokens q) = GOk [t] [].
Proof.
  intros q H. destruct (C52_generated hybrid (sync_passes parser_atn) (tokens q) hybrid_predicts sync_syncs H) as (t & H1 & H2). exists t. split; [exact H1|].
  rewrite <- gen_same; [exact H2|apply tokens_eof].
Qed.
Theorem C61_rejects : forall q, ~ conforms (tokens q) -> gen_query (adaptive parser_atn) (sync_passes parser_atn) (tokens q) = GErr.
Proof.
  intros q H. rewrite <- gen_same; [|apply tokens_eof]. apply C52_rejects; [exact hybrid_predicts|exact sync_syncs|exact H].
Qed.

(** Prediction does not recognise: it may settle on an alternative although none can reach the end of the input (the error is found later). *)
Transparent parser_atn.
Theorem C61_refuted_eager : exists d c w i, adaptive parser_atn d c w = Some i /\ forall j, ~ least_alt parser_atn d c w j.
Proof.
  exists 25%nat, [186; 128; 119; 90; 53; 46], [IDENTIFIER; OPERATOR_EQ; EOF], 2%nat. split; [vm_compute; reflexivity|]. intros j H. apply (proj2 predictor_predicts) in H.
  assert (E : predictor 25 [186; 128; 119; 90; 53; 46] [IDENTIFIER; OPERATOR_EQ; EOF] = None) by (vm_compute; reflexivity). congruence.
Qed.

(** ** Concrete cases *)
Example C61_witness : exists t, gen_query (adaptive parser_atn) (sync_passes parser_atn) (tokens (u "[a='x'&b='y'] within s")) = GOk [t] [].
Proof. destruct (gen_query (adaptive parser_atn) (sync_passes parser_atn) (tokens (u "[a='x'&b='y'] within s"))) as [[|t [|]] [|]| |] eqn:E; vm_compute in E; try discriminate. exists t. reflexivity. Qed.
(** SLL alone is in conflict on the query ['a'], with the full context the conflict is resolved. *)
Example C61_conflict : let ks := reach_set parser_atn false (collect (starts parser_atn false [] 1 (alternatives parser_atn 1))) (tnum REGEXP) in
  unique_alt ks = None /\ existsb (fun k => is_stop parser_atn (k_state k)) (reach_set parser_atn false ks (tnum EOF)) = true /\ unique_alt (reach_set parser_atn false ks (tnum EOF)) = None /\
  adaptive_predict parser_atn 1 [46] [REGEXP; EOF] = Alt 1.
Proof. vm_compute. repeat split. Qed.
Example C61_invoked : invoked 1 [46] /\ (exists s, nth_error (a_decisions parser_atn) 1 = Some s /\ in_rule s 1) /\ least_alt parser_atn 1 [46] ([REGEXP] ++ [EOF]) 1.
Proof.
  split; [|split].
  - destruct (out parser_atn 46) as [|[[] t] [|]] eqn:E; vm_compute in E; try discriminate. injection E as <- <- <- <-. eapply i_call; [vm_compute; reflexivity|eexists; split; vm_compute; reflexivity|].
    apply i_top. intros s q pr t H. apply out_edge in H.
    assert (Hf : forallb (fun e => match fst (snd e) with RuleT _ r _ => negb (r =? 0) | _ => true end) (a_edges parser_atn) = true) by (vm_compute; reflexivity).
    rewrite forallb_forall in Hf. specialize (Hf _ H). discriminate.
  - destruct (nth_error (a_decisions parser_atn) 1) as [s|] eqn:E; vm_compute in E; [|discriminate]. injection E as <-. eexists. split; [reflexivity|]. eexists. split; vm_compute; reflexivity.
  - assert (E : predictor 1 [46] [REGEXP; EOF] = Some 1%nat) by (vm_compute; reflexivity). unfold predictor in E. apply first_alt_spec in E. destruct E as (j & t & Hn & Ej & Hr & Hlt). assert (j = 0%nat) by lia. subst j. split.
    + exists t. split; [exact Hn|]. split; [lia|exact Hr].
    + intros j t' Hj. lia.
Qed.
