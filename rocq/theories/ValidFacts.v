(** The validator as a fold over findings. *)
From Coq Require Import String.
From Verif Require Import Base Ast Builder Parser Validation BuilderFacts BuilderRules ParseFacts TreeFacts AccessSpec ValidSpec PropsAccess PropsVisit.
Local Open Scope Z_scope.

Lemma known_in s l : known s l = true <-> In s l.
Proof. unfold known. destruct (in_dec (list_eq_dec N.eq_dec) s l); split; auto; discriminate. Qed.
Lemma known_str_in s l : known s l = str_in s l.
Proof.
  apply Bool.eq_iff_eq_true. rewrite known_in. unfold str_in. rewrite existsb_exists. split.
  - intros H. exists s. split; [exact H|]. apply str_eqb_eq. reflexivity.
  - intros (x & Hx & He). apply str_eqb_eq in He. subst. exact Hx.
Qed.
Lemma known_perm s l l' : (forall x, In x l <-> In x l') -> known s l = known s l'.
Proof. intros H. apply Bool.eq_iff_eq_true. rewrite !known_in. apply H. Qed.
Lemma known_one s x : known s [x] = str_eqb s x.
Proof. rewrite known_str_in. cbn. apply Bool.orb_false_r. Qed.
Lemma qualifiers_of_eq l i : qualifiers_of l i = lookup_qualifiers l i.
Proof.
  induction l as [|[j qs] l IH]; [reflexivity|]. cbn. rewrite IH. destruct (list_eq_dec N.eq_dec j i) as [->|Hn].
  - replace (str_eqb i i) with true by (symmetry; apply str_eqb_eq; reflexivity). reflexivity.
  - destruct (str_eqb j i) eqn:He; [apply str_eqb_eq in He; contradiction|reflexivity].
Qed.
Definition special (c : N) : bool := if in_dec N.eq_dec c regex_chars then negb (N.eqb c 32) else false.
Lemma special_eq c : special c = re_special c && negb (N.eqb c 32).
Proof.
  unfold special, re_special. replace (char_in c (u "()[]{}?*+-|^$\.&~# " ++ [9; 10; 13; 11; 12]%N)) with (if in_dec N.eq_dec c regex_chars then true else false).
  - destruct (in_dec N.eq_dec c regex_chars); reflexivity.
  - apply Bool.eq_iff_eq_true. unfold char_in. rewrite existsb_exists. unfold regex_chars. match goal with |- context [in_dec N.eq_dec c ?l] => destruct (in_dec N.eq_dec c l) as [H|H] end; split; auto; try discriminate.
    + intros _. exists c. split; [exact H|apply N.eqb_refl].
    + intros (x & Hx & He). apply N.eqb_eq in He. subst. contradiction.
Qed.
Lemma re_escape_cons c s : re_escape (c :: s) = (if re_special c then [92%N; c] else [c]) ++ re_escape s.
Proof. reflexivity. Qed.
Lemma re_escape_id s : re_escape s = s <-> existsb re_special s = false.
Proof.
  assert (Hl : forall s, (List.length s <= List.length (re_escape s))%nat).
  { induction s0 as [|c s0 IH]; [cbn; lia|]. rewrite re_escape_cons, app_length. destruct (re_special c); cbn [List.length]; lia. }
  induction s as [|c s IH]; [cbn; tauto|]. rewrite re_escape_cons. cbn [existsb]. destruct (re_special c) eqn:Hc; cbn [orb app].
  - split; [|discriminate]. intros H. exfalso. assert (H2 := f_equal (@List.length N) H). cbn [List.length] in H2. specialize (Hl s). lia.
  - rewrite <- IH. split; [intros H; injection H; auto|intros ->; reflexivity].
Qed.
Lemma likely_regex v : is_likely_a_regex v = existsb special v.
Proof.
  unfold is_likely_a_regex. set (w := filter _ v). assert (Hw : existsb re_special w = existsb special v).
  { unfold w. clear w. induction v as [|c v IH]; [reflexivity|]. cbn [filter existsb]. rewrite special_eq.
    destruct (N.eqb c 32); cbn [negb existsb]; rewrite IH; [rewrite Bool.andb_false_r|rewrite Bool.andb_true_r]; reflexivity. }
  rewrite <- Hw. destruct (existsb re_special w) eqn:He.
  - destruct (str_eqb w (re_escape w)) eqn:Hq; [|reflexivity]. apply str_eqb_eq in Hq. symmetry in Hq. apply re_escape_id in Hq. congruence.
  - apply re_escape_id in He. rewrite He. replace (str_eqb w w) with true by (symmetry; apply str_eqb_eq; reflexivity). reflexivity.
Qed.

Section Run.
  Variable repr_list : list pystr -> pystr.
  Variable C : vcfg.
  Let chk := expr_checks repr_list C.

  Definition report (f : finding) (s : vstate) : vact :=
    match f_sev f with
    | Error => validation_error C (f_node f) (f_msg f) s
    | Warning => validation_warning C (f_node f) (f_msg f) s
    end.
  Fixpoint run (fs : list finding) (s : vstate) : vact :=
    match fs with [] => (s, inr tt) | f :: fs' => vseq (report f s) (run fs') end.
  Lemma run_app a : forall b s, run (a ++ b) s = vseq (run a s) (run b).
  Proof.
    induction a as [|f a IH]; intros b s; [reflexivity|]. cbn. destruct (report f s) as [s' [e|[]]]; cbn; [reflexivity|]. apply IH.
  Qed.
  Definition set_stack (st : list qnode) (s : vstate) : vstate := mkV st (v_query s) (v_errors s) (v_warnings s).
  Lemma report_stack f st s : report f (set_stack st s) = (set_stack st (fst (report f s)), snd (report f s)).
  Proof.
    unfold report, validation_error, validation_warning. destruct (f_sev f), (raise_at_first_violation C), (warnings_as_errors C); reflexivity.
  Qed.
  Lemma run_stack : forall fs st s, run fs (set_stack st s) = (set_stack st (fst (run fs s)), snd (run fs s)).
  Proof.
    induction fs as [|f fs IH]; intros st s; [reflexivity|]. cbn. rewrite report_stack. destruct (report f s) as [s' [e|[]]]; cbn; [reflexivity|]. apply IH.
  Qed.
  Lemma report_keeps f s : v_stack (fst (report f s)) = v_stack s /\ v_query (fst (report f s)) = v_query s.
  Proof.
    unfold report, validation_error, validation_warning. destruct (f_sev f), (raise_at_first_violation C), (warnings_as_errors C); auto.
  Qed.
  Lemma run_keeps : forall fs s, v_stack (fst (run fs s)) = v_stack s /\ v_query (fst (run fs s)) = v_query s.
  Proof.
    induction fs as [|f fs IH]; intros s; [auto|]. cbn. destruct (report_keeps f s) as [A B]. destruct (report f s) as [s' [e|[]]]; cbn in *; [auto|].
    destruct (IH s') as [A' B']. rewrite A', B'. auto.
  Qed.

  Lemma run_one sm n s : run (map (fun sm => mkFinding (fst sm) (snd sm) n) [sm]) s = report (mkFinding (fst sm) (snd sm) n) s.
  Proof. cbn. destruct (report _ s) as [s' [e|[]]]; reflexivity. Qed.
  Lemma layer_run n i s : check_identifier repr_list C n i s = run (map (fun sm => mkFinding (fst sm) (snd sm) n) (layer_check repr_list C i)) s.
  Proof.
    unfold check_identifier, layer_check. change (KNOWN_LAYER_IDENTIFIERS) with known_layers. change KNOWN_LEGACY_LAYER_IDENTIFIER with [u "word"].
    rewrite !known_str_in. destruct (allowed_layer_identifiers C) as [[|a l]|].
    - destruct (str_in i known_layers); [reflexivity|]. destruct (str_in i [u "word"]); [rewrite run_one; reflexivity|].
      destruct (startswith (u "x-") i); rewrite run_one; reflexivity.
    - rewrite known_str_in. destruct (str_in i (a :: l)); [reflexivity|]. rewrite run_one. reflexivity.
    - destruct (str_in i known_layers); [reflexivity|]. destruct (str_in i [u "word"]); [rewrite run_one; reflexivity|].
      destruct (startswith (u "x-") i); rewrite run_one; reflexivity.
  Qed.
  Lemma qualifier_run n qu i s : check_qualifier repr_list C n qu i s = run (map (fun sm => mkFinding (fst sm) (snd sm) n) (qualifier_check repr_list C i qu)) s.
  Proof.
    unfold check_qualifier, qualifier_check. destruct qu as [[|a q]|]; try reflexivity. destruct (allowed_layer_qualifiers C) as [[|b l]|]; try reflexivity.
    rewrite qualifiers_of_eq. destruct (lookup_qualifiers (b :: l) i) as [qs|]; [|rewrite run_one; reflexivity].
    rewrite known_str_in. destruct (str_in (a :: q) qs); [reflexivity|]. rewrite run_one. reflexivity.
  Qed.
  Lemma ud_same r : known r ud17_tags = str_in r UNIVERSAL_POS_TAGS.
  Proof. rewrite <- known_str_in. apply known_perm. intros x. cbn. tauto. Qed.
  Lemma pos_run n qu i r fl s : check_pos repr_list C n qu i r fl s = run (map (fun sm => mkFinding (fst sm) (snd sm) n) (pos_check repr_list i qu r fl)) s.
  Proof.
    unfold check_pos, pos_check. rewrite <- ud_same, likely_regex. fold special. rewrite known_one.
    assert (Hm : str_eqb i (u "pos") = true -> quote_ i = u "'pos'") by (intros H; apply str_eqb_eq in H; subst; reflexivity).
    assert (H0 : forall b : bool, (if str_eqb i (u "pos") && true then
        if negb (known r ud17_tags) && negb (existsb special r) && b
        then validation_warning C n (u "Layer " ++ quote_ i ++ u " without qualifier should use UD17 POS tags, found " ++ quote_ r ++ u " (recommended to only use: " ++ repr_list UNIVERSAL_POS_TAGS ++ u ")") s
        else (s, inr tt) else (s, inr tt)) =
      run (map (fun sm => mkFinding (fst sm) (snd sm) n) (if b then if str_eqb i (u "pos") && negb (known r ud17_tags) && negb (existsb special r)
        then [(Warning, u "Layer 'pos' without qualifier should use UD17 POS tags, found " ++ sq r ++ u " (recommended to only use: " ++ repr_list UNIVERSAL_POS_TAGS ++ u ")")] else [] else [])) s).
    { intros b. destruct (str_eqb i (u "pos")) eqn:Hi; [|destruct b; reflexivity]. rewrite (Hm eq_refl). cbn [andb].
      destruct (negb (known r ud17_tags)), (negb (existsb special r)), b; cbn [andb]; try reflexivity. rewrite run_one. reflexivity. }
    specialize (H0 (negb (match fl with Some f => flags_nonempty f | None => false end))).
    destruct qu as [[|a q]|]; cbn [truthy negb].
    - rewrite H0. destruct fl as [[[] [] [] []]|]; reflexivity.
    - rewrite Bool.andb_false_r. reflexivity.
    - rewrite H0. destruct fl as [[[] [] [] []]|]; reflexivity.
  Qed.

  Definition vresult_of (a : vact) (o : vout) : Prop :=
    match a with
    | (t, inr _) => o = (t, inr None)
    | (t, inl e) => exists st, o = (set_stack st t, inl e)
    end.
  Lemma with_stack_run n sup fs : (forall s, vresult_of (run fs s) (sup s)) -> forall s, vresult_of (run fs s) (with_stack n sup s).
  Proof.
    intros H s. unfold with_stack. change (mkV (n :: v_stack s) (v_query s) (v_errors s) (v_warnings s)) with (set_stack (n :: v_stack s) s).
    specialize (H (set_stack (n :: v_stack s) s)). rewrite run_stack in H. destruct (run_keeps fs s) as [A B].
    destruct (run fs s) as [t [e|[]]]; cbn in *.
    - destruct H as (st & ->). exists st. reflexivity.
    - rewrite H. cbn. destruct t. cbn in *. congruence.
  Qed.
  Lemma visit_run : forall n s, vresult_of (run (findings chk n) s) (visit (validator_methods repr_list C) n s).
  Proof.
    induction n as [p l ch IH] using qnode_ind'.
    assert (Hch : forall s, vresult_of (run (flat_map (findings chk) ch) s) (visit_children (visit (validator_methods repr_list C)) ch None s)).
    { induction IH as [|c ch Hc _ IHch]; intros s; [reflexivity|]. cbn [flat_map]. rewrite run_app, vc_cons. specialize (Hc s).
      destruct (run (findings chk c) s) as [t [e|[]]]; cbn in *.
      - destruct Hc as (st & ->). exists st. reflexivity.
      - rewrite Hc. apply IHch. }
    assert (Hsplit : findings chk (QN p l ch) = (match p with PExpr _ _ _ _ _ => chk (QN p l ch) | _ => [] end) ++ flat_map (findings chk) ch).
    { unfold findings. cbn [preorder filter]. unfold q_class at 1. cbn [q_payload].
      assert (Hf : forall ch, flat_map chk (filter (fun m => if class_eq_dec (q_class m) CExpression then true else false) (flat_map preorder ch)) = flat_map (fun n => flat_map chk (filter (fun m => if class_eq_dec (q_class m) CExpression then true else false) (preorder n))) ch).
      { clear. induction ch as [|c ch IH]; [reflexivity|]. cbn [flat_map]. rewrite filter_app, flat_map_app, IH. reflexivity. }
      fold (findings chk). destruct p; cbn [class_of]; destruct (class_eq_dec _ _); try congruence; cbn [flat_map app]; rewrite ?Hf; reflexivity. }
    intros s. rewrite Hsplit, visit_eq. unfold validator_methods at 1.
    assert (Hws : forall s, vresult_of (run ([] ++ flat_map (findings chk) ch) s) (with_stack (QN p l ch) (visit_children (visit (validator_methods repr_list C)) ch None) s)) by (apply with_stack_run; exact Hch).
    destruct p; cbn [ntype_of node_type_str]; try (match goal with |- vresult_of _ (match (if ?b then _ else _) with _ => _ end) => let v := eval vm_compute in b in change b with v end; cbn match;
      try match goal with |- vresult_of _ (match (if ?b then _ else _) with _ => _ end) => let v := eval vm_compute in b in change b with v end; cbn match; first [apply Hws|apply Hch]).
    change (str_eqb (u "visit_" ++ u "Expression") (u "visit_Expression")) with true. cbn match.
    unfold visit_Expression. cbn [q_payload]. rewrite layer_run. unfold chk, expr_checks at 1. rewrite !map_app, <- !app_assoc, !run_app.
    destruct (run (map _ (layer_check _ _ _)) s) as [s1 [e|[]]]; cbn [vseq]; [exists (v_stack s1); destruct s1; reflexivity|]. rewrite qualifier_run, run_app.
    destruct (run (map _ (qualifier_check _ _ _ _)) s1) as [s2 [e|[]]]; cbn [vseq]; [exists (v_stack s2); destruct s2; reflexivity|]. rewrite pos_run, run_app.
    destruct (run (map _ (pos_check _ _ _ _ _)) s2) as [s3 [e|[]]]; cbn [vseq]; [exists (v_stack s3); destruct s3; reflexivity|].
    apply Hws.
  Qed.

  (** Closed forms of [run]. *)
  Lemma text_fragment q n : fragment_of q n = text_of q n.
  Proof. unfold fragment_of, text_of. destruct q as [[|a q]|]; try reflexivity. Qed.
  Lemma run_collect : raise_at_first_violation C = false -> forall fs s,
    run fs s = (mkV (v_stack s) (v_query s) (v_errors s ++ map (detail_of (v_query s)) (of_sev Error fs))
                    (v_warnings s ++ map (detail_of (v_query s)) (of_sev Warning fs)), inr tt).
  Proof.
    intros Hr. induction fs as [|[sv m n] fs IH]; intros s; [cbn; rewrite !app_nil_r; destruct s; reflexivity|]. cbn [run]. unfold report. cbn [f_sev f_msg f_node].
    unfold validation_error, validation_warning. rewrite Hr, Bool.andb_false_r. destruct sv; cbn [vseq]; rewrite IH; cbn; rewrite <- app_assoc; cbn; unfold detail_of at 2; cbn; rewrite text_fragment; reflexivity.
  Qed.
  Lemma run_raise_quiet : raise_at_first_violation C = true -> forall fs s, Forall (fun f => fatal C f = false) fs ->
    run fs s = (mkV (v_stack s) (v_query s) (v_errors s) (v_warnings s ++ map (detail_of (v_query s)) fs), inr tt).
  Proof.
    intros Hr fs s H. revert s. induction H as [|[sv m n] fs Hf _ IH]; intros s; [cbn; rewrite !app_nil_r; destruct s; reflexivity|].
    unfold fatal in Hf. cbn in Hf. destruct sv; [discriminate|]. cbn [run]. unfold report. cbn [f_sev f_msg f_node].
    unfold validation_warning. rewrite Hf. cbn [andb vseq]. rewrite IH. cbn. rewrite <- app_assoc. cbn. unfold detail_of at 2. cbn. rewrite text_fragment. reflexivity.
  Qed.
  Lemma run_raise_fatal : raise_at_first_violation C = true -> forall a f b s, Forall (fun f => fatal C f = false) a -> fatal C f = true ->
    run (a ++ f :: b) s = (mkV (v_stack s) (v_query s) (v_errors s) (v_warnings s ++ map (detail_of (v_query s)) a),
                           inl (mkSpec (f_msg f) (f_node f) (text_of (v_query s) (f_node f)))).
  Proof.
    intros Hr a f b s Ha Hf. rewrite run_app, run_raise_quiet by assumption. cbn [vseq run]. unfold report, validation_error, validation_warning, fatal in *.
    rewrite Hr. destruct (f_sev f); [|rewrite Hf]; cbn; rewrite text_fragment; reflexivity.
  Qed.
End Run.
