(** C37-C44: validators. *)
From Coq Require Import String.
From Verif Require Import Base Regex LexRules Lexer Grammar Antlr Ast Builder Parser Validation ModelTests
  SpellSpec BuilderFacts ParseSpec ParseFacts TreeSpec AccessSpec ValidSpec PropsParse PropsAccess PropsVisit ValidFacts.
Local Open Scope Z_scope.

(** The query string in force during a call [validate(node, query=q)]. *)
Definition in_force (q : option pystr) (s : vstate) : option pystr := match q with Some _ => q | None => v_query s end.

Section Run.
  Variable repr_list : list pystr -> pystr.
  Variable C : vcfg.
  Let chk := expr_checks repr_list C.
  Let is_ok (s : vstate) : bool :=
    (List.length (v_errors s) + (if warnings_as_errors C then List.length (v_warnings s) else 0) =? 0)%nat.
  Lemma validate_run n q s :
    let a := run C (findings chk n) (mkV (v_stack s) (in_force q s) [] []) in
    match a with
    | (t, inr _) => validator_validate repr_list C n q s = (t, inr (is_ok t))
    | (t, inl e) => exists st, validator_validate repr_list C n q s = (set_stack st t, inl e)
    end.
  Proof.
    cbv zeta. unfold validator_validate. fold (in_force q s). pose proof (visit_run repr_list C n (mkV (v_stack s) (in_force q s) [] [])) as H.
    fold chk in H. destruct (run C (findings chk n) _) as [t [e|[]]]; cbn [vresult_of] in H.
    - destruct H as (st & ->). exists st. reflexivity.
    - rewrite H. reflexivity.
  Qed.
End Run.

(** ** C37 *)
Theorem C37_collecting : forall repr_list C n q s, raise_at_first_violation C = false ->
  exists s' b, validator_validate repr_list C n q s = (s', inr b) /\
    let fs := findings (expr_checks repr_list C) n in
    v_errors s' = map (detail_of (in_force q s)) (of_sev Error fs) /\
    v_warnings s' = map (detail_of (in_force q s)) (of_sev Warning fs) /\
    v_query s' = in_force q s.
Proof.
  intros repr_list C n q s Hr. pose proof (validate_run repr_list C n q s) as H. cbv zeta in H. rewrite run_collect in H by exact Hr. cbn in H.
  eexists. eexists. split; [exact H|]. cbn. auto.
Qed.
(** Operators, groups, quantifiers around expressions play no role: the findings of a
    node are those of its children. *)
Theorem C37_compositional : forall check p l ch, class_of p <> CExpression ->
  findings check (QN p l ch) = flat_map (findings check) ch.
Proof.
  intros check p l ch Hp. unfold findings. cbn [preorder filter]. unfold q_class at 1. cbn [q_payload]. destruct (class_eq_dec (class_of p) CExpression); [contradiction|].
  clear. induction ch as [|c ch IH]; [reflexivity|]. cbn [flat_map]. rewrite filter_app, flat_map_app, IH. reflexivity.
Qed.

(** ** C38 *)
Lemma first_fatal C (fs : list finding) : Forall (fun f => fatal C f = false) fs \/
  exists a f b, fs = a ++ f :: b /\ Forall (fun f => fatal C f = false) a /\ fatal C f = true.
Proof.
  induction fs as [|f fs IH]; [left; constructor|]. destruct (fatal C f) eqn:Hf.
  - right. exists [], f, fs. repeat split; auto.
  - destruct IH as [H|(a & g & b & -> & Ha & Hg)]; [left; constructor; assumption|]. right. exists (f :: a), g, b. repeat split; auto.
Qed.
Theorem C38_raising : forall repr_list C n q s, raise_at_first_violation C = true ->
  let fs := findings (expr_checks repr_list C) n in
  (Forall (fun f => fatal C f = false) fs ->
     exists s', validator_validate repr_list C n q s = (s', inr true) /\
       v_errors s' = [] /\ v_warnings s' = map (detail_of (in_force q s)) fs) /\
  (forall before f after, fs = before ++ f :: after -> Forall (fun f => fatal C f = false) before -> fatal C f = true ->
     exists s', validator_validate repr_list C n q s =
       (s', inl (mkSpec (f_msg f) (f_node f) (text_of (in_force q s) (f_node f)))) /\
       v_errors s' = [] /\ v_warnings s' = map (detail_of (in_force q s)) before).
Proof.
  intros repr_list C n q s Hr fs. pose proof (validate_run repr_list C n q s) as H. cbv zeta in H. fold fs in H. split.
  - intros Hf. rewrite run_raise_quiet in H by assumption. cbn in H. eexists. split; [rewrite H; do 2 f_equal|split; reflexivity].
    destruct (warnings_as_errors C) eqn:Hw; [|reflexivity]. destruct fs as [|f fs']; [reflexivity|]. inversion Hf; subst. unfold fatal in *. destruct (f_sev f); congruence.
  - intros a f b Hs Ha Hf. rewrite Hs in H. rewrite run_raise_fatal in H by assumption. destruct H as (st & H). cbn in H. eexists. split; [exact H|split; reflexivity].
Qed.
(** It raises exactly if there is a fatal finding. *)
Theorem C38_raises : forall repr_list C n q s, raise_at_first_violation C = true ->
  (exists s' e, validator_validate repr_list C n q s = (s', inl e)) <->
  exists f, In f (findings (expr_checks repr_list C) n) /\ fatal C f = true.
Proof.
  intros repr_list C n q s Hr. destruct (C38_raising repr_list C n q s Hr) as [A B]. split.
  - intros (s' & e & H). destruct (first_fatal C (findings (expr_checks repr_list C) n)) as [Hf|(a & f & b & -> & _ & Hf)].
    + destruct (A Hf) as (t & Ht & _). congruence.
    + exists f. split; [apply in_or_app; right; left; reflexivity|exact Hf].
  - intros (f & Hin & Hf). destruct (first_fatal C (findings (expr_checks repr_list C) n)) as [Hq|(a & g & b & Hs & Ha & Hg)].
    + rewrite Forall_forall in Hq. rewrite (Hq f Hin) in Hf. discriminate.
    + destruct (B a g b Hs Ha Hg) as (s' & H & _). eauto.
Qed.

(** ** C39 *)
Definition no_fatal (repr_list : list pystr -> pystr) (C : vcfg) (n : qnode) : Prop :=
  forall f, In f (findings (expr_checks repr_list C) n) -> fatal C f = false.
Lemma of_sev_nil s fs : of_sev s fs = [] <-> forall f, In f fs -> f_sev f <> s.
Proof.
  unfold of_sev. split.
  - intros H f Hf Hs. assert (In f []) as []. rewrite <- H. apply filter_In. split; [exact Hf|]. rewrite Hs. destruct s; reflexivity.
  - intros H. induction fs as [|f fs IH]; [reflexivity|]. cbn. pose proof (H f (or_introl eq_refl)) as Hn.
    rewrite IH; [|intros g Hg; apply H; right; exact Hg]. destruct (f_sev f), s; try reflexivity; congruence.
Qed.
Lemma collect_verdict repr_list C n q s : raise_at_first_violation C = false ->
  exists s' b, validator_validate repr_list C n q s = (s', inr b) /\ (b = true <-> no_fatal repr_list C n).
Proof.
  intros Hr. pose proof (validate_run repr_list C n q s) as H. cbv zeta in H. rewrite run_collect in H by exact Hr.
  eexists. eexists. split; [exact H|]. unfold no_fatal, fatal. cbn [v_errors v_warnings app]. rewrite Nat.eqb_eq, !map_length.
  set (fs := findings _ n). assert (Hl : forall s, List.length (of_sev s fs) = 0%nat <-> forall f, In f fs -> f_sev f <> s).
  { intros sv. rewrite <- of_sev_nil. split; [apply length_zero_iff_nil|intros ->; reflexivity]. }
  rewrite Nat.eq_add_0, Hl. destruct (warnings_as_errors C).
  - rewrite Hl. split; [intros [A B] f Hf; specialize (A f Hf); specialize (B f Hf); destruct (f_sev f); congruence|].
    intros A. split; intros f Hf Hs; specialize (A f Hf); rewrite Hs in A; discriminate.
  - split; [intros [A _] f Hf; specialize (A f Hf); destruct (f_sev f); congruence|].
    intros A. split; [|reflexivity]. intros f Hf Hs; specialize (A f Hf); rewrite Hs in A; discriminate.
Qed.
Theorem C39_verdict : forall repr_list C n q s,
  (exists s' b, validator_validate repr_list C n q s = (s', inr b) /\ (b = true <-> no_fatal repr_list C n)) \/
  (raise_at_first_violation C = true /\ ~ no_fatal repr_list C n /\ exists s' e, validator_validate repr_list C n q s = (s', inl e)).
Proof.
  intros repr_list C n q s. destruct (raise_at_first_violation C) eqn:Hr; [|left; apply collect_verdict; exact Hr].
  destruct (C38_raising repr_list C n q s Hr) as [A B]. destruct (first_fatal C (findings (expr_checks repr_list C) n)) as [Hf|(a & f & b & Hs & Ha & Hf)].
  - left. destruct (A Hf) as (s' & Hv & _). exists s', true. split; [exact Hv|]. split; [|reflexivity]. intros _. unfold no_fatal. apply Forall_forall. exact Hf.
  - right. split; [reflexivity|]. split.
    + intros Hn. rewrite (Hn f) in Hf; [discriminate|]. rewrite Hs. apply in_or_app. right. left. reflexivity.
    + destruct (B a f b Hs Ha Hf) as (s' & Hv & _). eauto.
Qed.
Theorem C39_is_valid : forall repr_list C n q s,
  snd (validator_is_valid repr_list C n q s) = true <-> no_fatal repr_list C n.
Proof.
  intros repr_list C n q s. unfold validator_is_valid. destruct (C39_verdict repr_list C n q s) as [(s' & b & -> & H)|(_ & H & s' & e & ->)]; cbn; [exact H|].
  split; [discriminate|intros H'; contradiction].
Qed.
Theorem C39_modes_agree : forall repr_list n q s ids quals wae,
  snd (validator_is_valid repr_list (mkVCfg ids quals true wae) n q s) =
  snd (validator_is_valid repr_list (mkVCfg ids quals false wae) n q s).
Proof. intros. apply Bool.eq_iff_eq_true. rewrite !C39_is_valid. reflexivity. Qed.

(** ** C40 *)
(** What a caller sees of a call. *)
Definition seen (r : vstate * (spec_error + bool)) := (v_errors (fst r), v_warnings (fst r), v_query (fst r), snd r).
Lemma validate_state repr_list C n q s1 s2 : in_force q s1 = in_force q s2 ->
  seen (validator_validate repr_list C n q s1) = seen (validator_validate repr_list C n q s2).
Proof.
  intros Hq. pose proof (validate_run repr_list C n q s1) as H1. pose proof (validate_run repr_list C n q s2) as H2. cbv zeta in *.
  rewrite <- Hq in H2. set (fs := findings _ n) in *.
  pose proof (run_stack C fs (v_stack s2) (mkV (v_stack s1) (in_force q s1) [] [])) as Hs. unfold set_stack in Hs. cbn in Hs. rewrite Hs in H2.
  destruct (run C fs (mkV (v_stack s1) (in_force q s1) [] [])) as [t [e|[]]]; cbn in H2.
  - destruct H1 as (st & ->). destruct H2 as (st' & ->). reflexivity.
  - rewrite H1, H2. reflexivity.
Qed.
(** A validator object after a history of [validate] calls (raising or not). *)
Definition after_calls (repr_list : list pystr -> pystr) (C : vcfg) (s : vstate) (calls : list (qnode * option pystr)) : vstate :=
  fold_left (fun s c => fst (validator_validate repr_list C (fst c) (snd c) s)) calls s.
(** The last query string given: at construction or by a call. *)
Fixpoint last_query (q : option pystr) (calls : list (qnode * option pystr)) : option pystr :=
  match calls with
  | [] => q
  | (_, Some q') :: calls' => last_query (Some q') calls'
  | (_, None) :: calls' => last_query q calls'
  end.
Lemma validate_query repr_list C n q s : v_query (fst (validator_validate repr_list C n q s)) = in_force q s.
Proof.
  pose proof (validate_run repr_list C n q s) as H. cbv zeta in H. pose proof (run_keeps C (findings (expr_checks repr_list C) n) (mkV (v_stack s) (in_force q s) [] [])) as [_ K].
  destruct (run C _ _) as [t [e|[]]]; [destruct H as (st & ->)|rewrite H]; cbn in *; exact K.
Qed.
Theorem C40_reuse : forall repr_list C q0 calls n q,
  seen (validator_validate repr_list C n q (after_calls repr_list C (new_validator q0) calls)) =
  seen (validator_validate repr_list C n (match q with Some _ => q | None => last_query q0 calls end) (new_validator None)).
Proof.
  intros repr_list C q0 calls n q.
  assert (Hq : forall s, v_query (after_calls repr_list C s calls) = last_query (v_query s) calls).
  { clear. induction calls as [|[m q] calls IH]; intros s; [reflexivity|]. cbn [after_calls fold_left fst snd].
    change (fold_left _ calls ?x) with (after_calls repr_list C x calls). rewrite IH, validate_query. destruct q; reflexivity. }
  set (q' := match q with Some _ => q | None => last_query q0 calls end).
  assert (Hf : in_force q (after_calls repr_list C (new_validator q0) calls) = q').
  { unfold in_force, q'. destruct q; [reflexivity|]. rewrite Hq. reflexivity. }
  rewrite (validate_state _ _ _ q _ (new_validator q')).
  - assert (H : validator_validate repr_list C n q (new_validator q') = validator_validate repr_list C n q' (new_validator None)).
    { unfold validator_validate, q'. cbn. destruct q as [q|]; [reflexivity|]. destruct (last_query q0 calls); reflexivity. }
    rewrite H. reflexivity.
  - rewrite Hf. unfold in_force, q'. destruct q; reflexivity.
Qed.

(** ** C41 *)
(** The classes whose handlers track the stack when visited. *)
Definition tracked (c : class) : bool :=
  match c with
  | CExpression | CQueryDisjunction | CQuerySequence | CQueryWithWithin | CQuerySegment | CQueryGroup | CSimpleWithin => true
  | _ => false
  end.
(** Expressions with their nearest enclosing node of a tracked class. *)
Fixpoint expr_parents (par : option qnode) (n : qnode) : list (qnode * option qnode) :=
  match n with
  | QN p _ ch =>
      (if class_eq_dec (class_of p) CExpression then [(n, par)] else [])
      ++ flat_map (expr_parents (if tracked (class_of p) then Some n else par)) ch
  end.
(** A Validator subclass whose [visit_Expression] reports [check node parent_node] and
    then calls [super()]. *)
Definition probing (check : qnode -> option qnode -> list error_detail) : methods (S:=vstate) (E:=spec_error) (R:=unit) :=
  fun name =>
    if str_eqb name (u "visit_Expression") then
      Some (fun sup n s => with_stack n sup (mkV (v_stack s) (v_query s) (v_errors s ++ check n (parent_node s)) (v_warnings s)))
    else if str_in name adapter_names then Some (fun sup n s => with_stack n sup s) else None.
Theorem C41_parent : forall check n s,
  visit (probing check) n s =
  (mkV (v_stack s) (v_query s)
       (v_errors s ++ flat_map (fun mp => check (fst mp) (snd mp)) (expr_parents (parent_node s) n)) (v_warnings s), inr None).
Proof.
  intros check n. induction n as [p l ch IH] using qnode_ind'.
  set (out := fun par ch => flat_map (fun mp => check (fst mp) (snd mp)) (flat_map (expr_parents par) ch)).
  assert (Hch : forall s, visit_children (visit (probing check)) ch None s =
    (mkV (v_stack s) (v_query s) (v_errors s ++ out (parent_node s) ch) (v_warnings s), inr None)).
  { induction IH as [|c ch Hc _ IHch]; intros s; [unfold out; cbn; rewrite app_nil_r; destruct s; reflexivity|].
    rewrite vc_cons, Hc, IHch. unfold out. cbn [flat_map v_stack v_query v_errors v_warnings]. rewrite flat_map_app, app_assoc. reflexivity. }
  assert (Hws : forall s, with_stack (QN p l ch) (visit_children (visit (probing check)) ch None) s =
    (mkV (v_stack s) (v_query s) (v_errors s ++ out (Some (QN p l ch)) ch) (v_warnings s), inr None)).
  { intros s. unfold with_stack. rewrite Hch. reflexivity. }
  intros s. rewrite visit_eq. unfold probing at 1. cbn [expr_parents]. rewrite flat_map_app. unfold out in *.
  destruct p; cbn [ntype_of node_type_str class_of tracked]; try (destruct (class_eq_dec _ _) as [Hx|_]; [discriminate Hx|]; cbn [flat_map app];
    match goal with |- match (if ?b then _ else _) with _ => _ end = _ => let v := eval vm_compute in b in change b with v end; cbn match;
    try match goal with |- match (if ?b then _ else _) with _ => _ end = _ => let v := eval vm_compute in b in change b with v end; cbn match; first [apply Hws|apply Hch]).
  change (str_eqb (u "visit_" ++ u "Expression") (u "visit_Expression")) with true. cbv beta iota. rewrite Hws. destruct (class_eq_dec _ _) as [_|Hx]; [|congruence].
  cbn [flat_map app fst snd v_stack v_query v_errors v_warnings]. rewrite app_nil_r, app_assoc. reflexivity.
Qed.
(** The promise (the parent of the visited node) fails below operators. *)
Theorem C41_refuted : exists n e, parse some_env (new_parser (default_cfg false)) (u "[! a='b']") = Ok n /\
  q_children n = [QN PNot None [e]] /\ expr_parents None n = [(e, Some n)] /\ q_class n = CQuerySegment.
Proof. eexists. eexists. split; [vm_compute; reflexivity|]. split; [reflexivity|]. split; reflexivity. Qed.
(** Balanced after every call that does not raise ... *)
Theorem C41_balanced : forall repr_list C n q s s' b,
  validator_validate repr_list C n q s = (s', inr b) -> v_stack s' = v_stack s.
Proof.
  intros repr_list C n q s s' b H. pose proof (validate_run repr_list C n q s) as R. cbv zeta in R.
  pose proof (run_keeps C (findings (expr_checks repr_list C) n) (mkV (v_stack s) (in_force q s) [] [])) as [K _].
  destruct (run C _ _) as [t [e|[]]]; [destruct R as (st & R); congruence|]. rewrite R in H. injection H as <- _. exact K.
Qed.
(** ... but not after one that raises. *)
Theorem C41_unbalanced : exists n s' e, parse some_env (new_parser (default_cfg false)) (u "[a='b']") = Ok n /\
  validator_validate (fun _ => []) (mkVCfg None None true false) n None (new_validator None) = (s', inl e) /\ v_stack s' = [n].
Proof. eexists. eexists. eexists. split; [vm_compute; reflexivity|]. split; vm_compute; reflexivity. Qed.

(** ** C42 *)
Definition mentions (m s : pystr) : Prop := exists x y, m = x ++ u "'" ++ s ++ u "'" ++ y.
Lemma startswith_prefix p : forall s, startswith p s = true <-> exists r, s = p ++ r.
Proof.
  unfold startswith. induction p as [|c p IH]; intros s.
  - cbn. split; [intros _; exists s; reflexivity|reflexivity].
  - destruct s as [|d s]; cbn; [split; [discriminate|intros (r & H); discriminate]|]. rewrite Bool.andb_true_iff, N.eqb_eq, IH. split.
    + intros [-> (r & ->)]. exists r. reflexivity.
    + intros (r & H). injection H as -> ->. eauto.
Qed.
Lemma restricted_cases C : (exists l, restricted C l /\ allowed_layer_identifiers C = Some l /\ l <> []) \/
  ((forall l, ~ restricted C l) /\ match allowed_layer_identifiers C with Some (_ :: _) => False | _ => True end).
Proof.
  unfold restricted. destruct (allowed_layer_identifiers C) as [[|a l]|].
  - right. split; [|exact I]. intros l [H Hn]. injection H as <-. contradiction.
  - left. exists (a :: l). split; split; congruence.
  - right. split; [|exact I]. intros l [H _]. discriminate.
Qed.
Lemma in_mid {A} (x : A) a b c : In x (a ++ b ++ c) <-> In x a \/ In x b \/ In x c.
Proof. rewrite !in_app_iff. tauto. Qed.

(** The layer rule: exactly one error, one warning or nothing. *)
Definition verdict_on {A} (l : list (severity * A)) (sev : severity) (ok : A -> Prop) : Prop := exists m, l = [(sev, m)] /\ ok m.
Lemma layer_table repr_list C i :
  (layer_unknown C i /\ verdict_on (layer_check repr_list C i) Error (fun m => mentions m i)) \/
  (layer_dubious C i /\ verdict_on (layer_check repr_list C i) Warning (fun m => mentions m i)) \/
  (~ layer_unknown C i /\ ~ layer_dubious C i /\ layer_check repr_list C i = []).
Proof.
  unfold layer_unknown, layer_dubious, verdict_on, layer_check. destruct (restricted_cases C) as [(l & Hr & Ha & Hne)|(Hr & Ha)].
  - rewrite Ha. destruct l as [|a l]; [contradiction|]. destruct (known i (a :: l)) eqn:Hk.
    + right. right. apply known_in in Hk. split; [|split; [|reflexivity]].
      * intros [(l' & [Hl' _] & Hn)|(Hn & _)]; [|exact (Hn _ Hr)]. rewrite Ha in Hl'. injection Hl' as <-. contradiction.
      * intros (Hn & _). exact (Hn _ Hr).
    + left. split.
      * left. exists (a :: l). split; [exact Hr|]. intros Hin. apply known_in in Hin. congruence.
      * eexists. split; [reflexivity|]. exists (u "Unknown layer identifier "), (u " (only allowed: " ++ repr_list (a :: l) ++ u ")!"). unfold sq. rewrite <- !app_assoc. reflexivity.
  - assert (Hm : forall (A : Type) (x : list pystr -> A) (y : A), match allowed_layer_identifiers C with Some ((_ :: _) as l) => x l | _ => y end = y).
    { intros A x y. destruct (allowed_layer_identifiers C) as [[|a l]|]; [reflexivity|destruct Ha|reflexivity]. }
    rewrite Hm. clear Hm Ha. destruct (known i known_layers) eqn:Hk.
    { right. right. apply known_in in Hk. split; [|split; [|reflexivity]].
      - intros [(l & Hl & _)|(_ & Hn & _)]; [exact (Hr _ Hl)|contradiction].
      - intros (_ & Hn & _). contradiction. }
    assert (Hnk : ~ In i known_layers) by (intros H; apply known_in in H; congruence). destruct (known i [u "word"]) eqn:Hw.
    { right. left. apply known_in in Hw. destruct Hw as [<-|[]]. split; [auto|]. eexists. split; [reflexivity|]. exists (u "Usage of legacy(?) layer "). eexists. unfold sq. rewrite <- !app_assoc. reflexivity. }
    assert (Hnw : i <> u "word") by (intros ->; discriminate Hw). destruct (startswith (u "x-") i) eqn:Hx.
    + right. left. apply startswith_prefix in Hx. split; [repeat split; auto|]. eexists. split; [reflexivity|]. exists (u "Usage of custom layer with identifier "), []. unfold sq. rewrite app_nil_r. reflexivity.
    + left. split.
      * right. repeat split; auto. intros H. apply startswith_prefix in H. congruence.
      * eexists. split; [reflexivity|]. exists (u "Unknown layer identifier "). eexists. unfold sq. rewrite <- !app_assoc. reflexivity.
Qed.
Lemma qualifiers_for_fun l i : qualifiers_for l i (qualifiers_of l i).
Proof.
  induction l as [|[j qs] l IH]; cbn; [constructor|]. destruct (list_eq_dec N.eq_dec j i) as [->|Hn]; [constructor|]. constructor; [congruence|exact IH].
Qed.
Lemma qualifiers_for_det l i r : qualifiers_for l i r -> r = qualifiers_of l i.
Proof.
  induction 1 as [i|i qs l|i j qs l r Hn _ IH]; cbn; [reflexivity| |].
  - destruct (list_eq_dec N.eq_dec i i); [reflexivity|contradiction].
  - destruct (list_eq_dec N.eq_dec j i); [congruence|exact IH].
Qed.
Lemma qualifier_table repr_list C i qu :
  (exists q, qu = Some q /\ qualifier_unknown C i qu /\ verdict_on (qualifier_check repr_list C i qu) Error (fun m => mentions m q /\ mentions m i)) \/
  (~ qualifier_unknown C i qu /\ qualifier_check repr_list C i qu = []).
Proof.
  unfold qualifier_unknown, qualifier_check, verdict_on. destruct qu as [[|a q]|].
  - right. split; [|reflexivity]. intros (q & t & r & H & Hn & _). congruence.
  - destruct (allowed_layer_qualifiers C) as [[|b l]|] eqn:Hq.
    + right. split; [|reflexivity]. intros (q' & t & r & _ & _ & H & Hn & _). congruence.
    + pose proof (qualifiers_for_fun (b :: l) i) as Hf. destruct (qualifiers_of (b :: l) i) as [qs|] eqn:Hqs.
      * destruct (known (a :: q) qs) eqn:Hk.
        -- right. split; [|reflexivity]. intros (q' & t & r & H & _ & Ht & _ & Hr & Hbad). injection H as <-. injection Ht as <-.
           apply qualifiers_for_det in Hr. rewrite Hqs in Hr. subst r. apply known_in in Hk. destruct Hbad as [Hb|(qs' & Hb & Hb')]; [discriminate|]. injection Hb as <-. contradiction.
        -- left. exists (a :: q). split; [reflexivity|]. split.
           ++ exists (a :: q), (b :: l), (Some qs). repeat split; try congruence; try exact Hf. right. exists qs. split; [reflexivity|]. intros H. apply known_in in H. congruence.
           ++ eexists. split; [reflexivity|]. split.
              ** exists (u "Usage of unknown layer qualifier "). eexists. unfold sq. rewrite <- !app_assoc. reflexivity.
              ** exists (u "Usage of unknown layer qualifier " ++ sq (a :: q) ++ u " for layer with identifier "). eexists. unfold sq. rewrite <- !app_assoc. reflexivity.
      * left. exists (a :: q). split; [reflexivity|]. split.
        -- exists (a :: q), (b :: l), None. repeat split; try congruence; try exact Hf. left. reflexivity.
        -- eexists. split; [reflexivity|]. split.
           ++ exists (u "Usage of layer qualifier "). eexists. unfold sq. rewrite <- !app_assoc. reflexivity.
           ++ exists (u "Usage of layer qualifier " ++ sq (a :: q) ++ u " which is not allowed for layer with identifier "). eexists. unfold sq. rewrite <- !app_assoc. reflexivity.
    + right. split; [|reflexivity]. intros (q' & t & r & _ & _ & H & _). discriminate.
  - right. split; [|reflexivity]. intros (q & t & r & H & _). discriminate.
Qed.
Lemma special_spec r : existsb special r = true <-> exists c, In c r /\ regex_char c.
Proof.
  rewrite existsb_exists. unfold regex_char, special. split; intros (c & Hc & H); exists c; (split; [exact Hc|]).
  - destruct (in_dec N.eq_dec c regex_chars); [|discriminate]. split; [assumption|]. intros ->. discriminate.
  - destruct H as [H Hn]. destruct (in_dec N.eq_dec c regex_chars); [|contradiction]. apply Bool.negb_true_iff. apply N.eqb_neq. exact Hn.
Qed.
Lemma pos_table repr_list i qu r fl :
  (pos_dubious i qu r fl /\ verdict_on (pos_check repr_list i qu r fl) Warning (fun m => mentions m i /\ mentions m r)) \/
  (~ pos_dubious i qu r fl /\ pos_check repr_list i qu r fl = []).
Proof.
  unfold pos_dubious, verdict_on.
  assert (Hq : (exists a q, qu = Some (a :: q)) \/ (qu = None \/ qu = Some [])) by (destruct qu as [[|a q]|]; eauto).
  destruct Hq as [(a & q & ->)|Hq]; [right; split; [intros (_ & [H|H] & _); discriminate|destruct fl as [[[] [] [] []]|]; reflexivity]|].
  assert (Hf : (exists F f, fl = Some F /\ flag_in f F = true) \/ (forall F, fl = Some F -> forall f, flag_in f F = false)).
  { destruct fl as [[a b c d]|]; [|right; discriminate].
    destruct a; [left; eexists; exists CASE_INSENSITIVE; split; reflexivity|]. destruct b; [left; eexists; exists CASE_SENSITIVE; split; reflexivity|].
    destruct c; [left; eexists; exists LITERAL_MATCHING; split; reflexivity|]. destruct d; [left; eexists; exists IGNORE_DIACRITICS; split; reflexivity|].
    right. intros F H f. injection H as <-. destruct f; reflexivity. }
  destruct Hf as [(F & f & -> & Hf)|Hf].
  { right. split; [intros (_ & _ & H & _); rewrite (H F eq_refl f) in Hf; discriminate|]. destruct F as [[] [] [] []]; destruct f; try discriminate Hf; destruct qu as [[|]|]; reflexivity. }
  set (body := if known i [u "pos"] && negb (known r ud17_tags) && negb (existsb special r)
        then [(Warning, u "Layer 'pos' without qualifier should use UD17 POS tags, found " ++ sq r
                 ++ u " (recommended to only use: " ++ repr_list UNIVERSAL_POS_TAGS ++ u ")")] else []).
  assert (Hb : pos_check repr_list i qu r fl = body).
  { unfold pos_check, body, special. destruct Hq as [->| ->]; (destruct fl as [F|]; [|reflexivity]);
      (destruct F as [a b c d]; pose proof (Hf _ eq_refl CASE_INSENSITIVE) as H1; pose proof (Hf _ eq_refl CASE_SENSITIVE) as H2;
       pose proof (Hf _ eq_refl LITERAL_MATCHING) as H3; pose proof (Hf _ eq_refl IGNORE_DIACRITICS) as H4; cbn in H1, H2, H3, H4; subst; reflexivity). }
  rewrite Hb. unfold body. clear Hb body. destruct (known i [u "pos"]) eqn:Hi.
  2:{ right. split; [|reflexivity]. intros (-> & _). discriminate Hi. }
  apply known_in in Hi. destruct Hi as [<-|[]]. destruct (known r ud17_tags) eqn:Hr.
  { right. split; [|reflexivity]. intros (_ & _ & _ & H & _). apply known_in in Hr. contradiction. }
  destruct (existsb special r) eqn:Hs.
  { right. split; [|reflexivity]. intros (_ & _ & _ & _ & H). apply special_spec in Hs. contradiction. }
  left. split.
  - repeat split; auto; [intros H; apply known_in in H; congruence|intros H; apply special_spec in H; congruence].
  - eexists. split; [reflexivity|]. split.
    + exists (u "Layer "). eexists. reflexivity.
    + exists (u "Layer 'pos' without qualifier should use UD17 POS tags, found "). eexists. unfold sq. rewrite <- !app_assoc. reflexivity.
Qed.
(** The findings of one expression: those of the layer rule, of the qualifier rule and of
    the POS rule, in this order, at most one each, at the expression. *)
Lemma checks_table : forall repr_list C qu i op r fl l ch, let n := QN (PExpr qu i op r fl) l ch in
  exists a b c, expr_checks repr_list C n = map (fun sm => mkFinding (fst sm) (snd sm) n) (a ++ b ++ c) /\
  ((layer_unknown C i /\ verdict_on a Error (fun m => mentions m i)) \/
   (layer_dubious C i /\ verdict_on a Warning (fun m => mentions m i)) \/
   (~ layer_unknown C i /\ ~ layer_dubious C i /\ a = [])) /\
  ((exists q, qu = Some q /\ qualifier_unknown C i qu /\ verdict_on b Error (fun m => mentions m q /\ mentions m i)) \/
   (~ qualifier_unknown C i qu /\ b = [])) /\
  ((pos_dubious i qu r fl /\ verdict_on c Warning (fun m => mentions m i /\ mentions m r)) \/
   (~ pos_dubious i qu r fl /\ c = [])).
Proof.
  intros repr_list C qu i op r fl l ch n. exists (layer_check repr_list C i), (qualifier_check repr_list C i qu), (pos_check repr_list i qu r fl).
  split; [reflexivity|]. split; [apply layer_table|]. split; [apply qualifier_table|apply pos_table].
Qed.
Theorem C42_exclusive : forall C i, layer_dubious C i -> ~ layer_unknown C i.
Proof.
  intros C i (Hr & _ & Hi) [(l & Hl & _)|(_ & _ & Hw & Hc)]; [exact (Hr _ Hl)|]. tauto.
Qed.
Lemma in_findings sev (n : qnode) a b c :
  (exists f, In f (map (fun sm => mkFinding (fst sm) (snd sm) n) (a ++ b ++ c)) /\ f_sev f = sev) <->
  (exists m, In (sev, m) a) \/ (exists m, In (sev, m) b) \/ (exists m, In (sev, m) c).
Proof.
  split.
  - intros (f & Hf & Hs). apply in_map_iff in Hf. destruct Hf as ([sv m] & <- & Hf). cbn in Hs. subst sv. apply in_mid in Hf.
    destruct Hf as [H|[H|H]]; eauto.
  - intros H. assert (exists m, In (sev, m) (a ++ b ++ c)) as (m & Hm) by (destruct H as [(m & H)|[(m & H)|(m & H)]]; exists m; apply in_mid; auto).
    eexists. split; [apply in_map_iff; exists (sev, m); split; [reflexivity|exact Hm]|reflexivity].
Qed.
Lemma verdict_has {A} (l : list (severity * A)) sev ok : verdict_on l sev ok -> forall sev', (exists m, In (sev', m) l) <-> sev' = sev.
Proof.
  intros (m & -> & _) sev'. split; [intros (m' & [H|[]]); congruence|intros ->; exists m; left; reflexivity].
Qed.
Lemma none_has {A} (sev : severity) : (exists m : A, In (sev, m) []) <-> False.
Proof. split; [intros (m & [])|intros []]. Qed.
Lemma checks_errors : forall repr_list C qu i op r fl l ch,
  (exists f, In f (expr_checks repr_list C (QN (PExpr qu i op r fl) l ch)) /\ f_sev f = Error) <->
  layer_unknown C i \/ qualifier_unknown C i qu.
Proof.
  intros. destruct (checks_table repr_list C qu i op r fl l ch) as (a & b & c & -> & Ha & Hb & Hc). rewrite in_findings.
  assert (H3 : ~ exists m, In (Error, m) c) by (destruct Hc as [(_ & Hc)|(_ & ->)]; [rewrite (verdict_has _ _ _ Hc); discriminate|rewrite none_has; auto]).
  assert (H2 : (exists m, In (Error, m) b) <-> qualifier_unknown C i qu) by (destruct Hb as [(q & _ & Hq & Hb)|(Hq & ->)]; [rewrite (verdict_has _ _ _ Hb)|rewrite none_has]; tauto).
  assert (H1 : (exists m, In (Error, m) a) <-> layer_unknown C i).
  { destruct Ha as [(Hu & Ha)|[(Hd & Ha)|(Hu & _ & ->)]]; [rewrite (verdict_has _ _ _ Ha); tauto| |rewrite none_has; tauto].
    rewrite (verdict_has _ _ _ Ha). apply C42_exclusive in Hd. split; [discriminate|tauto]. }
  tauto.
Qed.
Lemma checks_warnings : forall repr_list C qu i op r fl l ch,
  (exists f, In f (expr_checks repr_list C (QN (PExpr qu i op r fl) l ch)) /\ f_sev f = Warning) <->
  layer_dubious C i \/ pos_dubious i qu r fl.
Proof.
  intros. destruct (checks_table repr_list C qu i op r fl l ch) as (a & b & c & -> & Ha & Hb & Hc). rewrite in_findings.
  assert (H3 : (exists m, In (Warning, m) c) <-> pos_dubious i qu r fl) by (destruct Hc as [(Hp & Hc)|(Hp & ->)]; [rewrite (verdict_has _ _ _ Hc)|rewrite none_has]; tauto).
  assert (H2 : ~ exists m, In (Warning, m) b) by (destruct Hb as [(q & _ & _ & Hb)|(_ & ->)]; [rewrite (verdict_has _ _ _ Hb); discriminate|rewrite none_has; auto]).
  assert (H1 : (exists m, In (Warning, m) a) <-> layer_dubious C i).
  { destruct Ha as [(Hu & Ha)|[(Hd & Ha)|(_ & Hd & ->)]]; [|rewrite (verdict_has _ _ _ Ha); tauto|rewrite none_has; tauto].
    rewrite (verdict_has _ _ _ Ha). split; [discriminate|]. intros Hd. exfalso. exact (C42_exclusive _ _ Hd Hu). }
  tauto.
Qed.
(** C42, C44 on the validator: what a collecting validator records for one expression. *)
Definition messages (sev : severity) (l : list (severity * pystr)) : list pystr :=
  map snd (filter (fun sm => match fst sm, sev with Error, Error | Warning, Warning => true | _, _ => false end) l).
Theorem C42_table : forall repr_list C qu i op r fl l q s, raise_at_first_violation C = false ->
  let n := QN (PExpr qu i op r fl) l [] in
  exists s' ok a b c, validator_validate repr_list C n q s = (s', inr ok) /\
  v_errors s' = map (fun m => mkErr m (Some (u "validation-error")) (option_map PosLoc l) (text_of (in_force q s) n)) (messages Error (a ++ b ++ c)) /\
  v_warnings s' = map (fun m => mkErr m (Some (u "validation-warning")) (option_map PosLoc l) (text_of (in_force q s) n)) (messages Warning (a ++ b ++ c)) /\
  (* the layer rule *)
  ((layer_unknown C i /\ verdict_on a Error (fun m => mentions m i)) \/
   (layer_dubious C i /\ verdict_on a Warning (fun m => mentions m i)) \/
   (~ layer_unknown C i /\ ~ layer_dubious C i /\ a = [])) /\
  (* the qualifier rule *)
  ((exists q, qu = Some q /\ qualifier_unknown C i qu /\ verdict_on b Error (fun m => mentions m q /\ mentions m i)) \/
   (~ qualifier_unknown C i qu /\ b = [])) /\
  (* the POS rule *)
  ((pos_dubious i qu r fl /\ verdict_on c Warning (fun m => mentions m i /\ mentions m r)) \/
   (~ pos_dubious i qu r fl /\ c = [])).
Proof.
  intros repr_list C qu i op r fl l q s Hr n. destruct (C37_collecting repr_list C n q s Hr) as (s' & ok & H & He & Hw & _).
  destruct (checks_table repr_list C qu i op r fl l []) as (a & b & c & Hc & Ht). exists s', ok, a, b, c. split; [exact H|].
  assert (Hf : findings (expr_checks repr_list C) n = map (fun sm => mkFinding (fst sm) (snd sm) n) (a ++ b ++ c)).
  { fold n in Hc. rewrite <- Hc. exact (app_nil_r (expr_checks repr_list C n)). }
  rewrite Hf in He, Hw. split; [|split; [|exact Ht]].
  - rewrite He. generalize (a ++ b ++ c) as x. induction x as [|[[] m] x IH]; [reflexivity| |exact IH]. cbn. f_equal. exact IH.
  - rewrite Hw. generalize (a ++ b ++ c) as x. induction x as [|[[] m] x IH]; [reflexivity|exact IH|]. cbn. f_equal. exact IH.
Qed.
(** On a whole tree. *)
Lemma findings_sev repr_list C n sev :
  of_sev sev (findings (expr_checks repr_list C) n) <> [] <->
  exists m qu i op r fl, In m (preorder n) /\ q_payload m = PExpr qu i op r fl /\ exists f, In f (expr_checks repr_list C m) /\ f_sev f = sev.
Proof.
  split.
  - intros H. destruct (of_sev sev _) as [|f l] eqn:Hl; [contradiction|]. assert (Hin : In f (of_sev sev (findings (expr_checks repr_list C) n))) by (rewrite Hl; left; reflexivity).
    unfold of_sev in Hin. apply filter_In in Hin. destruct Hin as [Hin Hs]. unfold findings in Hin. apply in_flat_map in Hin. destruct Hin as (m & Hm & Hf). apply filter_In in Hm. destruct Hm as [Hm _].
    destruct m as [[qu i op r fl| | | | | | | | | | |] l' ch]; try destruct Hf. exists (QN (PExpr qu i op r fl) l' ch), qu, i, op, r, fl. split; [exact Hm|]. split; [reflexivity|].
    exists f. split; [exact Hf|]. destruct (f_sev f), sev; congruence.
  - intros (m & qu & i & op & r & fl & Hm & Hp & f & Hf & Hs) H. assert (Hin : In f (of_sev sev (findings (expr_checks repr_list C) n))); [|rewrite H in Hin; destruct Hin].
    unfold of_sev. apply filter_In. split; [|rewrite Hs; destruct sev; reflexivity]. unfold findings. apply in_flat_map. exists m. split; [|exact Hf].
    apply filter_In. split; [exact Hm|]. unfold q_class. rewrite Hp. reflexivity.
Qed.
Lemma map_nonnil {A B} (f : A -> B) l : map f l <> [] <-> l <> [].
Proof. destruct l; split; intros H; try contradiction; discriminate. Qed.
Theorem C42_errors : forall repr_list C n q s, raise_at_first_violation C = false ->
  exists s' ok, validator_validate repr_list C n q s = (s', inr ok) /\
  (v_errors s' <> [] <-> exists m qu i op r fl, In m (preorder n) /\ q_payload m = PExpr qu i op r fl /\
     (layer_unknown C i \/ qualifier_unknown C i qu)) /\
  (v_warnings s' <> [] <-> exists m qu i op r fl, In m (preorder n) /\ q_payload m = PExpr qu i op r fl /\
     (layer_dubious C i \/ pos_dubious i qu r fl)).
Proof.
  intros repr_list C n q s Hr. destruct (C37_collecting repr_list C n q s Hr) as (s' & ok & H & He & Hw & _). exists s', ok. split; [exact H|].
  rewrite He, Hw, !map_nonnil, !findings_sev. split; split; intros (m & qu & i & op & r & fl & Hm & Hp & Hx); exists m, qu, i, op, r, fl; (split; [exact Hm|]; split; [exact Hp|]);
    destruct m as [p l ch]; cbn in Hp; subst p.
  - eapply checks_errors; exact Hx.
  - eapply checks_errors in Hx; exact Hx.
  - eapply checks_warnings; exact Hx.
  - eapply checks_warnings in Hx; exact Hx.
Qed.
Example C42_witness : exists s, validator_validate (fun _ => u "...") (mkVCfg None (Some [(u "pos", Some [u "ud"])]) false true)
    (QN PAnd None [QN (PExpr (Some (u "stts")) (u "pos") EQUALS (u "NN") None) None []; QN (PExpr None (u "word") EQUALS (u "NN") None) None [];
                   QN (PExpr None (u "x-a") EQUALS (u "NN") None) None []; QN (PExpr None (u "foo") EQUALS (u "NN") None) None []])
    None (new_validator None) = (s, inr false) /\
  map ed_message (v_errors s) = [u "Usage of unknown layer qualifier 'stts' for layer with identifier 'pos' (only allowed: ...)!"; u "Unknown layer identifier 'foo'!"] /\
  map ed_message (v_warnings s) = [u "Usage of legacy(?) layer 'word'. Did you mean 'text' instead?"; u "Usage of custom layer with identifier 'x-a'"].
Proof. eexists. split; [vm_compute; reflexivity|]. split; reflexivity. Qed.

(** ** C43 *)
Theorem C43_regex : forall v, is_likely_a_regex v = true <-> exists c, In c v /\ regex_char c.
Proof. intros v. rewrite likely_regex. apply special_spec. Qed.
Theorem C43_insensitive : forall v w, (forall c, c <> 32%N -> (In c v <-> In c w)) -> is_likely_a_regex v = is_likely_a_regex w.
Proof.
  intros v w H. apply Bool.eq_iff_eq_true. rewrite !C43_regex. split; intros (c & Hc & Hr); exists c; (split; [|exact Hr]); apply H; try assumption; apply Hr.
Qed.
Example C43_witness : is_likely_a_regex (u "a b c") = false /\ is_likely_a_regex (u "a.b") = true /\ is_likely_a_regex (u "<a@b>") = false.
Proof. repeat split. Qed.

(** ** C44 *)
(** The POS warning, apart from those of the layer rule. *)
Theorem C44_pos : forall repr_list C n q s, raise_at_first_violation C = false ->
  (forall m qu i op r fl, In m (preorder n) -> q_payload m = PExpr qu i op r fl -> ~ layer_dubious C i) ->
  exists s' ok, validator_validate repr_list C n q s = (s', inr ok) /\
  (v_warnings s' <> [] <-> exists m qu i op r fl, In m (preorder n) /\ q_payload m = PExpr qu i op r fl /\
     i = u "pos" /\ (qu = None \/ qu = Some []) /\ (forall F, fl = Some F -> forall f, flag_in f F = false) /\
     ~ In r ud17_tags /\ ~ exists c, In c r /\ regex_char c).
Proof.
  intros repr_list C n q s Hr Hd. destruct (C42_errors repr_list C n q s Hr) as (s' & ok & H & _ & Hw). exists s', ok. split; [exact H|]. rewrite Hw.
  split; intros (m & qu & i & op & r & fl & Hm & Hp & Hx); exists m, qu, i, op, r, fl; (split; [exact Hm|]; split; [exact Hp|]).
  - destruct Hx as [Hx|Hx]; [destruct (Hd _ _ _ _ _ _ Hm Hp Hx)|exact Hx].
  - right. exact Hx.
Qed.
Example C44_witness : let warnings i r fl := map ed_message (v_warnings (fst (validator_validate (fun _ => u "...") (mkVCfg None None false true)
    (QN PNot None [QN (PExpr None i NOT_EQUALS r fl) None []]) None (new_validator None)))) in
  warnings (u "pos") (u "NN") None = [u "Layer 'pos' without qualifier should use UD17 POS tags, found 'NN' (recommended to only use: ...)"] /\
  warnings (u "pos") (u "NOUN") None = [] /\ warnings (u "pos") (u "N.*") None = [] /\ warnings (u "lemma") (u "NN") None = [] /\
  warnings (u "pos") (u "NN") (Some (mkFlags true false false false)) = [].
Proof. vm_compute. auto. Qed.

(** ** Concrete cases for C37-C41: two findings that are errors, one warning *)
Definition findings_tree : qnode := QN (PSegment 1 1) None [
  QN PAnd None [QN (PExpr None (u "word") EQUALS (u "a") None) None []; QN (PExpr None (u "foo") EQUALS (u "b") None) None [];
                QN PNot None [QN (PExpr None (u "bar") EQUALS (u "c") None) None []]]].
Example C37_witness : map (fun f => (f_sev f, f_msg f)) (findings (expr_checks (fun _ => []) (mkVCfg None None false false)) findings_tree) =
  [(Warning, u "Usage of legacy(?) layer 'word'. Did you mean 'text' instead?"); (Error, u "Unknown layer identifier 'foo'!"); (Error, u "Unknown layer identifier 'bar'!")] /\
  exists s, validator_validate (fun _ => []) (mkVCfg None None false false) findings_tree (Some (u "q")) (new_validator None) = (s, inr false) /\
    List.length (v_errors s) = 2%nat /\ List.length (v_warnings s) = 1%nat /\ v_query s = Some (u "q").
Proof. split; [vm_compute; reflexivity|]. eexists. split; [vm_compute; reflexivity|]. vm_compute. repeat split. Qed.
Example C38_witness : exists s e, validator_validate (fun _ => []) (mkVCfg None None true false) findings_tree None (new_validator None) = (s, inl e) /\
  se_message e = u "Unknown layer identifier 'foo'!" /\ v_errors s = [] /\ List.length (v_warnings s) = 1%nat.
Proof. eexists _, _. split; [vm_compute; reflexivity|]. vm_compute. repeat split. Qed.
Example C39_witness : snd (validator_is_valid (fun _ => []) (mkVCfg None None true false) findings_tree None (new_validator None)) = false /\
  snd (validator_is_valid (fun _ => []) (mkVCfg (Some [u "word"; u "foo"; u "bar"]) None true true) findings_tree None (new_validator None)) = true /\
  snd (validator_is_valid (fun _ => []) (mkVCfg None None true false) (QN (PExpr None (u "word") EQUALS (u "a") None) None []) None (new_validator None)) = true /\
  snd (validator_is_valid (fun _ => []) (mkVCfg None None true true) (QN (PExpr None (u "word") EQUALS (u "a") None) None []) None (new_validator None)) = false.
Proof. vm_compute. repeat split. Qed.
Example C40_witness : let C := mkVCfg None None true false in
  let s := after_calls (fun _ => []) C (new_validator (Some (u "q"))) [(findings_tree, None); (QN PWildcard None [], Some (u "r"))] in
  v_stack s <> [] /\ exists s' e, validator_validate (fun _ => []) C findings_tree None s = (s', inl e) /\ v_query s' = Some (u "r").
Proof. split; [vm_compute; discriminate|]. eexists _, _. split; [vm_compute; reflexivity|]. reflexivity. Qed.
Example C41_witness : exists s, validator_validate (fun _ => []) (mkVCfg None None false false) findings_tree None (new_validator None) = (s, inr false) /\ v_stack s = [] /\
  map (fun mp => option_map q_class (snd mp)) (expr_parents None findings_tree) = [Some CQuerySegment; Some CQuerySegment; Some CQuerySegment].
Proof. eexists. split; [vm_compute; reflexivity|]. split; reflexivity. Qed.
