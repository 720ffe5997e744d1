(** C41: what the internal stack holds after a call that raises. *)
From Coq Require Import String.
From Verif Require Import Base Regex LexRules Lexer Grammar Antlr Ast Builder Parser Validation ModelTests
  SpellSpec BuilderFacts ParseSpec ParseFacts TreeSpec AccessSpec ValidSpec PropsParse PropsAccess PropsVisit ValidFacts PropsValid.
Local Open Scope Z_scope.

(** [ancestors n m l]: [m] is [n] or below it, and [l] are the nodes above [m] up to [n], nearest first. *)
Inductive ancestors : qnode -> qnode -> list qnode -> Prop :=
| an_here n : ancestors n n []
| an_below n c m l : In c (q_children n) -> ancestors c m l -> ancestors n m (l ++ [n]).

Section Stack.
  Variable repr_list : list pystr -> pystr.
  Variable C : vcfg.
  Notation M := (validator_methods repr_list C).
  Notation seen_above l := (filter (fun a => tracked (q_class a)) l).
  Lemma report_blames f s s' e : report C f s = (s', inl e) -> se_node e = f_node f.
  Proof.
    unfold report, validation_error, validation_warning. destruct (f_sev f), (raise_at_first_violation C), (warnings_as_errors C); cbn; intros H; try discriminate H; injection H as _ <-; reflexivity.
  Qed.
  Lemma run_blames fs : forall s s' e n, Forall (fun f => f_node f = n) fs -> run C fs s = (s', inl e) -> se_node e = n.
  Proof.
    induction fs as [|f fs IH]; intros s s' e n Hn H; [discriminate|]. inversion Hn as [|? ? Hf Hfs]; subst. cbn in H.
    destruct (report C f s) as [t [e0|[]]] eqn:Hr; cbn in H; [injection H as <- <-; eapply report_blames; exact Hr|]. eapply IH; eassumption.
  Qed.
  Lemma checks_blame (cs : list (severity * pystr)) n s s' e : run C (map (fun sm => mkFinding (fst sm) (snd sm) n) cs) s = (s', inl e) -> se_node e = n /\ v_stack s' = v_stack s.
  Proof.
    intros H. split; [eapply run_blames; [|exact H]; apply Forall_forall; intros f Hf; apply in_map_iff in Hf; destruct Hf as (x & <- & _); reflexivity|].
    destruct (run_keeps C (map (fun sm => mkFinding (fst sm) (snd sm) n) cs) s) as [K _]. rewrite H in K. exact K.
  Qed.
  Lemma run_kept fs s s' x : run C fs s = (s', x) -> v_stack s' = v_stack s.
  Proof. intros H. pose proof (proj1 (run_keeps C fs s)) as K. rewrite H in K. exact K. Qed.
  Lemma visit_keeps n s s' r : visit M n s = (s', inr r) -> v_stack s' = v_stack s.
  Proof.
    intros H. pose proof (visit_run repr_list C n s) as R. destruct (run_keeps C (findings (expr_checks repr_list C) n) s) as [K _].
    unfold vresult_of in R. destruct (run C _ s) as [t [e|[]]]; [destruct R as (st & R); rewrite R in H; discriminate H|]. rewrite R in H. injection H as <- _. exact K.
  Qed.
  Lemma visit_left n : forall s s' e, visit M n s = (s', inl e) ->
    exists l, ancestors n (se_node e) l /\ v_stack s' = seen_above l ++ v_stack s.
  Proof.
    induction n as [p lo ch IH] using qnode_ind'. set (n := QN p lo ch).
    assert (Hch : forall cs s s' e, incl cs ch -> visit_children (visit M) cs None s = (s', inl e) ->
      exists l0 c, In c ch /\ ancestors c (se_node e) l0 /\ v_stack s' = seen_above l0 ++ v_stack s).
    { rewrite Forall_forall in IH. induction cs as [|c cs IHc]; intros s s' e Hi H; [discriminate|]. rewrite vc_cons in H.
      destruct (visit M c s) as [t [e0|r]] eqn:Hv.
      - injection H as <- <-. destruct (IH c (Hi c (or_introl eq_refl)) _ _ _ Hv) as (l & Hl & Hs). exists l, c. auto using in_eq.
      - assert (Hr : r = None).
        { pose proof (visit_run repr_list C c s) as R. unfold vresult_of in R. destruct (run C _ s) as [t0 [e0|[]]]; [destruct R as (st & R); rewrite R in Hv; discriminate Hv|]. rewrite R in Hv. injection Hv as _ <-. reflexivity. }
        subst r. destruct (IHc t s' e) as (l & c' & Hc' & Hl & Hs); [intros x Hx; apply Hi; right; exact Hx|exact H|].
        exists l, c'. split; [exact Hc'|]. split; [exact Hl|]. rewrite Hs, (visit_keeps _ _ _ _ Hv). reflexivity. }
    assert (Hoff : forall s s' e, tracked (q_class n) = false -> visit_children (visit M) ch None s = (s', inl e) ->
      exists l, ancestors n (se_node e) l /\ v_stack s' = seen_above l ++ v_stack s).
    { intros s s' e Ht H. destruct (Hch ch s s' e (incl_refl _) H) as (l & c & Hc & Hl & Hs). exists (l ++ [n]). split; [eapply an_below; eassumption|].
      rewrite filter_app. cbn [filter]. rewrite Ht, app_nil_r. exact Hs. }
    assert (Hon : forall s s' e, tracked (q_class n) = true -> with_stack n (visit_children (visit M) ch None) s = (s', inl e) ->
      exists l, ancestors n (se_node e) l /\ v_stack s' = seen_above l ++ v_stack s).
    { intros s s' e Ht H. unfold with_stack in H. destruct (visit_children (visit M) ch None _) as [t [e0|r]] eqn:Hv; [|discriminate H]. injection H as <- <-.
      destruct (Hch ch _ _ _ (incl_refl _) Hv) as (l & c & Hc & Hl & Hs). exists (l ++ [n]). split; [eapply an_below; eassumption|].
      rewrite filter_app, <- app_assoc. cbn [filter]. rewrite Ht. exact Hs. }
    intros s s' e. unfold n at 1. rewrite visit_eq. unfold validator_methods at 1. fold n.
    destruct p; cbn [ntype_of node_type_str]; try (match goal with |- match (if ?b then _ else _) with _ => _ end = _ -> _ => let v := eval vm_compute in b in change b with v end; cbn match;
      try match goal with |- match (if ?b then _ else _) with _ => _ end = _ -> _ => let v := eval vm_compute in b in change b with v end; cbn match; first [apply Hon; reflexivity|apply Hoff; reflexivity]).
    change (str_eqb (u "visit_" ++ u "Expression") (u "visit_Expression")) with true. cbn match.
    unfold visit_Expression. subst n. cbn [q_payload]. rewrite layer_run.
    destruct (run C (map _ (layer_check _ _ _)) s) as [s1 [e1|[]]] eqn:H1; cbn [vseq].
    { intros H. injection H as <- <-. destruct (checks_blame _ _ _ _ _ H1) as [-> ->]. exists []. split; [constructor|reflexivity]. }
    rewrite qualifier_run. pose proof (run_kept _ _ _ _ H1) as K1.
    destruct (run C (map _ (qualifier_check _ _ _ _)) s1) as [s2 [e2|[]]] eqn:H2; cbn [vseq].
    { intros H. injection H as <- <-. destruct (checks_blame _ _ _ _ _ H2) as [-> ->]. exists []. split; [constructor|exact K1]. }
    rewrite pos_run. pose proof (run_kept _ _ _ _ H2) as K2.
    destruct (run C (map _ (pos_check _ _ _ _ _)) s2) as [s3 [e3|[]]] eqn:H3; cbn [vseq].
    { intros H. injection H as <- <-. destruct (checks_blame _ _ _ _ _ H3) as [-> ->]. exists []. split; [constructor|rewrite K2; exact K1]. }
    pose proof (run_kept _ _ _ _ H3) as K3.
    intros H. destruct (Hon s3 s' e eq_refl H) as (l & Hl & Hs). exists l. split; [exact Hl|]. rewrite Hs, K3, K2, K1. reflexivity.
  Qed.
End Stack.

(** A call that raises leaves on the stack, above what was there before, exactly the ancestors of the node it blames that have a tracked class, nearest first. *)
Theorem C41_left_behind : forall repr_list C n q s s' e,
  validator_validate repr_list C n q s = (s', inl e) ->
  exists l, ancestors n (se_node e) l /\ v_stack s' = filter (fun a => tracked (q_class a)) l ++ v_stack s.
Proof.
  intros repr_list C n q s s' e H. unfold validator_validate in H.
  destruct (visit (validator_methods repr_list C) n _) as [t [e0|r]] eqn:Hv; [|discriminate H]. injection H as <- <-.
  destruct (visit_left repr_list C n _ _ _ Hv) as (l & Hl & Hs). exists l. auto.
Qed.
(** Its [parent_node] then is the nearest tracked ancestor of the blamed node (or, if there is none, what it was before the call). *)
Corollary C41_blamed : forall repr_list C n q s s' e,
  validator_validate repr_list C n q s = (s', inl e) ->
  exists l, ancestors n (se_node e) l /\
    parent_node s' = match filter (fun a => tracked (q_class a)) l with a :: _ => Some a | [] => parent_node s end.
Proof.
  intros repr_list C n q s s' e H. destruct (C41_left_behind _ _ _ _ _ _ _ H) as (l & Hl & Hs). exists l. split; [exact Hl|].
  unfold parent_node. rewrite Hs. destruct (filter _ l); reflexivity.
Qed.
(** What the calls leave behind adds up: nothing is ever removed. *)
Theorem C41_adds_up : forall repr_list C calls s,
  exists ls, v_stack (after_calls repr_list C s calls) = concat ls ++ v_stack s /\
    Forall (fun l => exists n q m l0, In (n, q) calls /\ ancestors n m l0 /\ l = filter (fun a => tracked (q_class a)) l0) ls.
Proof.
  intros repr_list C. induction calls as [|[n q] calls IH]; intros s; [exists []; split; [reflexivity|constructor]|].
  change (after_calls repr_list C s ((n, q) :: calls)) with (after_calls repr_list C (fst (validator_validate repr_list C n q s)) calls).
  destruct (IH (fst (validator_validate repr_list C n q s))) as (ls & Hls & Hf).
  assert (Hf' : Forall (fun l => exists n0 q0 m l0, In (n0, q0) ((n, q) :: calls) /\ ancestors n0 m l0 /\ l = filter (fun a => tracked (q_class a)) l0) ls).
  { eapply Forall_impl; [|exact Hf]. cbv beta. intros l (n0 & q0 & m & l0 & H1 & H2 & H3). exists n0, q0, m, l0. split; [right; exact H1|auto]. }
  destruct (validator_validate repr_list C n q s) as [t [e|b]] eqn:Hv; cbn [fst] in *.
  - destruct (C41_left_behind _ _ _ _ _ _ _ Hv) as (l & Hl & Hs). exists (ls ++ [filter (fun a => tracked (q_class a)) l]).
    rewrite Hls, Hs, concat_app. cbn [concat]. rewrite app_nil_r, app_assoc. split; [reflexivity|]. apply Forall_app. split; [exact Hf'|].
    constructor; [|constructor]. exists n, q, (se_node e), l. split; [left; reflexivity|auto].
  - rewrite (C41_balanced _ _ _ _ _ _ _ Hv) in Hls. exists ls. auto.
Qed.
(** The offending comparison stands below operators and parentheses: these are not on the stack. *)
Definition left_tree : qnode := match parse some_env (new_parser (default_cfg false)) (u "'a' ([! pos='b' & (foo='d')])") with Ok n => n | Raise _ => QN PWildcard None [] end.
Definition at_path (is_ : list nat) : qnode := fold_left (fun n i => nth i (q_children n) n) is_ left_tree.
Example C41_left_witness : parse some_env (new_parser (default_cfg false)) (u "'a' ([! pos='b' & (foo='d')])") = Ok left_tree /\
  exists s' e, validator_validate (fun _ => []) (mkVCfg None None true false) left_tree None (new_validator None) = (s', inl e) /\
  se_node e = at_path [1; 0; 0; 0; 1; 0]%nat /\
  ancestors left_tree (se_node e) [at_path [1; 0; 0; 0; 1]; at_path [1; 0; 0; 0]; at_path [1; 0; 0]; at_path [1; 0]; at_path [1]; left_tree]%nat /\
  map q_class [at_path [1; 0; 0; 0; 1]; at_path [1; 0; 0; 0]; at_path [1; 0; 0]; at_path [1; 0]; at_path [1]; left_tree]%nat = [CExpressionGroup; CExpressionAnd; CQuerySegment; CQuerySequence; CQueryGroup; CQuerySequence] /\
  v_stack s' = [at_path [1; 0; 0]; at_path [1; 0]; at_path [1]; left_tree]%nat.
Proof.
  split; [vm_compute; reflexivity|]. do 2 eexists. split; [vm_compute; reflexivity|]. cbn [se_node v_stack].
  split; [vm_compute; reflexivity|]. split; [|split; vm_compute; reflexivity].
  match goal with |- ancestors _ ?m _ => change m with (at_path [1; 0; 0; 0; 1; 0]%nat) end.
  apply (an_below (left_tree%nat) (at_path [1]%nat) _ [at_path [1; 0; 0; 0; 1]; at_path [1; 0; 0; 0]; at_path [1; 0; 0]; at_path [1; 0]; at_path [1]]%nat); [vm_compute; tauto|].
  apply (an_below (at_path [1]%nat) (at_path [1; 0]%nat) _ [at_path [1; 0; 0; 0; 1]; at_path [1; 0; 0; 0]; at_path [1; 0; 0]; at_path [1; 0]]%nat); [vm_compute; tauto|].
  apply (an_below (at_path [1; 0]%nat) (at_path [1; 0; 0]%nat) _ [at_path [1; 0; 0; 0; 1]; at_path [1; 0; 0; 0]; at_path [1; 0; 0]]%nat); [vm_compute; tauto|].
  apply (an_below (at_path [1; 0; 0]%nat) (at_path [1; 0; 0; 0]%nat) _ [at_path [1; 0; 0; 0; 1]; at_path [1; 0; 0; 0]]%nat); [vm_compute; tauto|].
  apply (an_below (at_path [1; 0; 0; 0]%nat) (at_path [1; 0; 0; 0; 1]%nat) _ [at_path [1; 0; 0; 0; 1]]%nat); [vm_compute; tauto|].
  apply (an_below (at_path [1; 0; 0; 0; 1]%nat) (at_path [1; 0; 0; 0; 1; 0]%nat) _ []%nat); [vm_compute; tauto|].
  constructor.
Qed.
Print Assumptions C41_left_behind.
Print Assumptions C41_adds_up.
