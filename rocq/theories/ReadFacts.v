(** The documented reading: it is spelled by its tokens, unique, and agrees with the textbook level structure. *)
From Coq Require Import String.
From Verif Require Import Base Regex LexRules Lexer Grammar Antlr Ast Builder Parser LexSpec LitSpec
  GramSpec GramFacts ValueSpec ValueFacts SpellSpec BuilderFacts BuilderRules ParseSpec ParseFacts LevelFacts SelFacts PrecFacts
  TreeSpec TreeFacts LevelSpec LevelThm QuerySpec PropsParse ReadSpec.
Local Open Scope Z_scope.

(** ** Words of types *)
Definition inert (t : ttype) : bool := negb (opens t) && negb (closes t) && negb (is_op t).
Lemma inert_word w : forallb inert w = true -> balanced w /\ ops w = [].
Proof.
  unfold balanced. induction w as [|t w IH]; intros H; [split; reflexivity|]. cbn [forallb] in H. apply andb_true_iff in H. destruct H as [Ht H].
  specialize (IH H). destruct IH as [IH1 IH2]. unfold inert in Ht. destruct t; try discriminate Ht; (split; [exact IH1|]); unfold ops in *; cbn; exact IH2.
Qed.
Lemma balanced_wrap o c w : opens o = true -> opens c = false -> closes c = true -> balanced w -> balanced (o :: w ++ [c]) /\ ops (o :: w ++ [c]) = [].
Proof.
  intros Ho Hc1 Hc Hw. unfold balanced in *. assert (Hr : run 1 w = Some 1).
  { assert (G : forall v d d' k, run d v = Some d' -> 0 <= d -> 0 <= k -> run (d + k) v = Some (d' + k)).
    { clear. induction v as [|t v IH]; intros d d' k H Hd Hk; cbn in *; [injection H as <-; reflexivity|].
      destruct (opens t); [replace (d + k + 1) with (d + 1 + k) by lia; apply IH; auto; lia|]. destruct (closes t); [|auto].
      destruct (Z.leb_spec 1 d); [|discriminate]. destruct (Z.leb_spec 1 (d + k)); [|lia]. replace (d + k - 1) with (d - 1 + k) by lia. apply IH; auto; lia. }
    apply (G w 0 0 1 Hw); lia. }
  split.
  - cbn [run]. rewrite Ho. change (0 + 1) with 1. rewrite run_app, Hr. cbn [run]. rewrite Hc1, Hc. reflexivity.
  - unfold ops. cbn [tops]. rewrite Ho. change (0 + 1) with 1. rewrite (tops_app w 1 1 [c] Hr). pose proof (tops_deep w 0 0 1 Hw ltac:(lia) ltac:(lia)) as Hd. change (0 + 1) with 1 in Hd. rewrite Hd.
    cbn [tops]. rewrite Hc1, Hc. reflexivity.
Qed.
Lemma types_app (a b : list token) : types (a ++ b) = types a ++ types b. Proof. apply map_app. Qed.

Section Facts.
  Variables (E : penv) (C : pcfg).
  Notation sp_expr := (sp_expr E C). Notation sp_regex := (sp_regex E C). Notation sp_item := (sp_item E C). Notation sp_seq := (sp_seq E C).
  Notation rd_level := (rd_level E C). Notation rd_terms := (rd_terms E C). Notation rd_term := (rd_term E C).
  Notation rd_factors := (rd_factors E C). Notation rd_factor := (rd_factor E C).
  Notation rd_item := (rd_item E C). Notation rd_seq := (rd_seq E C). Notation rd_operand := (rd_operand E C).
  Notation rd_operands := (rd_operands E C). Notation rd_content := (rd_content E C).
  Notation rd_main := (rd_main E C). Notation rd_query := (rd_query E C).

  (** ** Values are functional *)
  Lemma flags_denote_fun w S S' : flags_denote w S -> flags_denote w S' -> S = S'.
  Proof.
    intros H H'. assert (G : forall f, flag_in f S = flag_in f S').
    { intros f. specialize (H f). specialize (H' f). destruct (flag_in f S), (flag_in f S'); auto; [symmetry|]; tauto. }
    destruct S, S'. pose proof (G CASE_INSENSITIVE). pose proof (G CASE_SENSITIVE). pose proof (G LITERAL_MATCHING). pose proof (G IGNORE_DIACRITICS). cbn in *. congruence.
  Qed.
  Lemma sp_regex_fun ts v fl v' fl' : sp_regex ts v fl -> sp_regex ts v' fl' -> v = v' /\ fl = fl'.
  Proof.
    intros H H'. inversion H as [k v0 Hk Hv|k s f v0 S Hk Hs Hf Hv HS Hc]; subst; inversion H' as [k' v0' Hk' Hv'|k' s' f' v0' S' Hk' Hs' Hf' Hv' HS' Hc']; subst.
    - rewrite (C07_unambiguous _ _ _ Hv Hv'). auto.
    - rewrite (C07_unambiguous _ _ _ Hv Hv'), (flags_denote_fun _ _ _ HS HS'). auto.
  Qed.
  Lemma scope_fun w a b : scope_word w a -> scope_word w b -> a = b.
  Proof. intros H H'. inversion H; subst; inversion H'; try reflexivity; try (match goal with He : u _ = u _ |- _ => vm_compute in He; discriminate He end). Qed.
  Lemma sp_op_fun t a b : sp_op t a -> sp_op t b -> a = b.
  Proof. intros H H'. inversion H as [? Ha|? Ha]; subst; inversion H' as [? Hb|? Hb]; subst; auto; unfold is_tok in *; congruence. Qed.

  (** ** Types of the parts *)
  Lemma attr_inert ta q i : sp_attr ta q i -> forallb inert (types ta) = true.
  Proof.
    intros H. inversion H as [a Ha|a c b Ha Hc Hb]; subst; unfold name_tok, is_tok in *; cbn [map forallb].
    - cbn in Ha. decompose [or] Ha; try contradiction; match goal with He : _ = t_type _ |- _ => rewrite <- He end; reflexivity.
    - rewrite Hc. cbn in Ha, Hb. assert (G : forall x, IDENTIFIER = x \/ WITHIN = x \/ SIMPLE_WITHIN_SCOPE = x \/ REGEXP_FLAGS = x \/ False -> inert x = true) by (intros x Hx; decompose [or] Hx; subst; try contradiction; reflexivity).
      rewrite (G _ Ha), (G _ Hb). reflexivity.
  Qed.
  Lemma op_inert o op : sp_op o op -> inert (t_type o) = true.
  Proof. intros H. inversion H as [? Ha|? Ha]; subst; rewrite Ha; reflexivity. Qed.
  Lemma regex_inert tr v fl : sp_regex tr v fl -> forallb inert (types tr) = true.
  Proof. intros H. inversion H as [k v0 Hk Hv|k s f v0 S Hk Hs Hf Hv HS Hc]; subst; unfold is_tok in *; cbn [map forallb]; rewrite ?Hk, ?Hs, ?Hf; reflexivity. Qed.
  Lemma quant_inert tq mn mx : quantified tq mn mx -> forallb inert (types tq) = true.
  Proof. intros H. inversion H; subst; unfold is_tok, int_tok in *; cbn [map forallb]; repeat match goal with He : _ /\ _ |- _ => destruct He as [? _] end;
    repeat match goal with He : t_type _ = _ |- _ => rewrite He; clear He end; reflexivity. Qed.
  Lemma basic_tidy ta o tr q i op v fl : sp_attr ta q i -> sp_op o op -> sp_regex tr v fl -> balanced (types (ta ++ o :: tr)) /\ ops (types (ta ++ o :: tr)) = [].
  Proof.
    intros H1 H2 H3. apply inert_word. rewrite types_app, forallb_app. cbn [map forallb]. rewrite (attr_inert _ _ _ H1), (op_inert _ _ H2), (regex_inert _ _ _ H3). reflexivity.
  Qed.

  (** ** Spelled expressions are balanced *)
  Lemma sep_balanced sep k (a b : list token) : sep = AND \/ sep = OR -> is_tok sep k -> balanced (types a) -> balanced (types b) -> balanced (types (a ++ k :: b)).
  Proof.
    intros Hs Hk Ha Hb. rewrite types_app. apply balanced_app; [exact Ha|]. cbn [map]. rewrite Hk. apply balanced_cons_op; [destruct Hs; subst; reflexivity|exact Hb].
  Qed.
  Lemma expr_balanced : (forall ts n, sp_expr ts n -> balanced (types ts)) /\
    (forall sep ts ns, sp_exprs E C sep ts ns -> sep = AND \/ sep = OR -> balanced (types ts)).
  Proof.
    apply (sp_expr_mutind E C (fun ts n => balanced (types ts)) (fun sep ts ns => sep = AND \/ sep = OR -> balanced (types ts))).
    - intros. eapply basic_tidy; eassumption.
    - intros l ts r n Hl _ IH Hr. cbn [map]. rewrite types_app. cbn [map]. rewrite Hl, Hr. apply balanced_wrap; auto.
    - intros k ts n Hk _ IH. cbn [map]. rewrite Hk. exact IH.
    - auto.
    - auto.
    - auto.
    - intros sep ts n k ts' ns _ IH Hk _ IH' Hs. eapply sep_balanced; eauto.
  Qed.

  (** ** Readings: cleanness, payloads, soundness *)
  Definition tidy (ts : list token) : Prop := balanced (types ts) /\ ops (types ts) = [].
  Lemma ops_sep sep k (a b : list token) : sep = AND \/ sep = OR -> is_tok sep k -> balanced (types a) -> ops (types (a ++ k :: b)) = ops (types a) ++ sep :: ops (types b).
  Proof. intros Hs Hk Ha. rewrite types_app, ops_app by exact Ha. cbn [map]. rewrite Hk, ops_op by (destruct Hs; subst; reflexivity). reflexivity. Qed.
  Lemma rd_clean :
    (forall ts n, rd_level ts n -> balanced (types ts)) /\
    (forall ts ns, rd_terms ts ns -> balanced (types ts)) /\
    (forall ts n, rd_term ts n -> balanced (types ts) /\ Forall (eq AND) (ops (types ts))) /\
    (forall ts ns, rd_factors ts ns -> balanced (types ts) /\ Forall (eq AND) (ops (types ts))) /\
    (forall ts n, rd_factor ts n -> tidy ts).
  Proof.
    apply (rd_level_mutind E C (fun ts n => balanced (types ts)) (fun ts ns => balanced (types ts))
      (fun ts n => balanced (types ts) /\ Forall (eq AND) (ops (types ts))) (fun ts ns => balanced (types ts) /\ Forall (eq AND) (ops (types ts))) (fun ts n => tidy ts)).
    - intros ts n _ IH. apply IH.
    - intros ts ns _ IH _. exact IH.
    - intros ts n _ IH. apply IH.
    - intros ts n k ts' ns _ [IH _] Hk _ IH'. apply (sep_balanced OR); auto.
    - intros ts n _ [H1 H2]. rewrite H2. auto.
    - intros ts ns _ IH _. exact IH.
    - intros ts n _ [H1 H2]. rewrite H2. auto.
    - intros ts n k ts' ns _ [H1 H2] Hk _ [H3 H4]. split; [apply (sep_balanced AND); auto|]. rewrite (ops_sep AND) by auto. rewrite H2. constructor; auto.
    - intros. eapply basic_tidy; eassumption.
    - intros l ts r n Hl _ IH Hr. unfold tidy. cbn [map]. rewrite types_app. cbn [map]. rewrite Hl, Hr. apply balanced_wrap; auto.
    - intros k ts n Hk _ [IH1 IH2]. unfold tidy. cbn [map]. rewrite Hk, ops_not. split; [exact IH1|exact IH2].
  Qed.
  Lemma factor_clean sep ts n : rd_factor ts n -> clean sep ts.
  Proof. intros H. apply (proj2 (proj2 (proj2 (proj2 rd_clean)))) in H. destruct H as [H1 H2]. split; [exact H1|]. rewrite H2. intros []. Qed.
  Lemma term_clean ts n : rd_term ts n -> clean OR ts.
  Proof. intros H. apply (proj1 (proj2 (proj2 rd_clean))) in H. destruct H as [H1 H2]. split; [exact H1|]. intros Hi. rewrite Forall_forall in H2. specialize (H2 _ Hi). discriminate. Qed.
  Lemma factor_payload ts n : rd_factor ts n -> q_payload n <> PAnd /\ q_payload n <> POr.
  Proof. intros H. inversion H; subst; cbn; split; discriminate. Qed.
  Lemma term_payload ts n : rd_term ts n -> q_payload n <> POr.
  Proof. intros H. inversion H as [? ? Hf|]; subst; [apply factor_payload in Hf; tauto|cbn; discriminate]. Qed.

  Lemma rd_sound :
    (forall ts n, rd_level ts n -> sp_expr ts n) /\
    (forall ts ns, rd_terms ts ns -> sp_exprs E C OR ts ns /\ forall n, In n ns -> q_payload n <> POr) /\
    (forall ts n, rd_term ts n -> sp_expr ts n) /\
    (forall ts ns, rd_factors ts ns -> sp_exprs E C AND ts ns /\ forall n, In n ns -> q_payload n <> PAnd /\ q_payload n <> POr) /\
    (forall ts n, rd_factor ts n -> sp_expr ts n).
  Proof.
    apply (rd_level_mutind E C sp_expr (fun ts ns => sp_exprs E C OR ts ns /\ forall n, In n ns -> q_payload n <> POr)
      sp_expr (fun ts ns => sp_exprs E C AND ts ns /\ forall n, In n ns -> q_payload n <> PAnd /\ q_payload n <> POr) sp_expr); auto.
    - intros ts ns _ [H1 H2] Hl. constructor; auto.
    - intros ts n Ht IH. split; [constructor; exact IH|]. intros x [<-|[]]. eapply term_payload; exact Ht.
    - intros ts n k ts' ns Ht IH Hk _ [IH1 IH2]. split; [constructor; auto|]. intros x [<-|Hx]; [eapply term_payload; exact Ht|auto].
    - intros ts ns _ [H1 H2] Hl. constructor; auto; [intros n Hn; apply H2; exact Hn|]. intros n Hn. destruct ns; [discriminate|]. injection Hn as <-. apply H2. left. reflexivity.
    - intros ts n Ht IH. split; [constructor; exact IH|]. intros x [<-|[]]. eapply factor_payload; exact Ht.
    - intros ts n k ts' ns Ht IH Hk _ [IH1 IH2]. split; [constructor; auto|]. intros x [<-|Hx]; [eapply factor_payload; exact Ht|auto].
    - intros. eapply se_basic; eassumption.
    - intros. constructor; auto.
    - intros. constructor; auto.
  Qed.

  (** ** Parts of readings *)
  Lemma rd_terms_parts ts ns : rd_terms ts ns -> Forall2 rd_term (parts OR ts) ns.
  Proof.
    induction 1 as [ts n H|ts n k ts' ns H Hk _ IH].
    - rewrite parts_one by (auto; eapply term_clean; exact H). constructor; auto.
    - rewrite parts_sep by (auto; eapply term_clean; exact H). constructor; auto.
  Qed.
  Lemma rd_factors_parts ts ns : rd_factors ts ns -> Forall2 rd_factor (parts AND ts) ns.
  Proof.
    induction 1 as [ts n H|ts n k ts' ns H Hk _ IH].
    - rewrite parts_one by (auto; eapply factor_clean; exact H). constructor; auto.
    - rewrite parts_sep by (auto; eapply factor_clean; exact H). constructor; auto.
  Qed.
  Lemma term_parts ts n : rd_term ts n -> parts OR ts = [ts].
  Proof. intros H. apply parts_one; auto. eapply term_clean; exact H. Qed.
  Lemma factor_parts sep ts n : sep = AND \/ sep = OR -> rd_factor ts n -> parts sep ts = [ts].
  Proof. intros Hs H. apply parts_one; auto. eapply factor_clean; exact H. Qed.
  Lemma terms_ne ts ns : rd_terms ts ns -> ns <> []. Proof. intros H. inversion H; discriminate. Qed.
  Lemma factors_ne ts ns : rd_factors ts ns -> ns <> []. Proof. intros H. inversion H; discriminate. Qed.

  (** ** The textbook structure *)
  Lemma rd_factor_tb ts n : rd_factor ts n -> tb_factor E C ts n.
  Proof.
    intros H. remember H as H0 eqn:He. clear He. revert H0. apply (rd_factor_mind E C (fun _ _ => True) (fun _ _ => True) (fun _ _ => True) (fun _ _ => True) (fun ts n => rd_factor ts n -> tb_factor E C ts n)); auto.
    - intros ta o tr q i op v fl H1 H2 H3 _. apply tb_atom; [eapply se_basic; eassumption|left; reflexivity].
    - intros l ts0 r n0 H1 H2 _ H3 _. apply tb_atom; [apply se_group; auto; apply (proj1 rd_sound); exact H2|right; reflexivity].
    - intros k ts0 n0 Hk H2 IH _. apply tb_not; auto.
  Qed.
  Lemma rd_term_tb ts n : rd_term ts n -> tb_term E C ts n.
  Proof.
    intros H. unfold tb_term. inversion H as [? ? Hf|? ns Hf Hl]; subst.
    - rewrite (factor_parts AND _ _ (or_introl eq_refl) Hf). apply rd_factor_tb. exact Hf.
    - pose proof (rd_factors_parts _ _ Hf) as H2. destruct (parts AND ts) as [|p [|p' ps]] eqn:Hp; [inversion H2; subst; cbn in Hl; lia|inversion H2 as [|? ? ? ? ? H3]; subst; inversion H3; subst; cbn in Hl; lia|].
      exists ns. split; [|reflexivity]. clear -H2. induction H2; constructor; auto using rd_factor_tb.
  Qed.
  Lemma rd_level_tb ts n : rd_level ts n -> textbook E C ts n.
  Proof.
    intros H. unfold textbook. inversion H as [? ? Hf|? ns Hf Hl]; subst.
    - rewrite (term_parts _ _ Hf). apply rd_term_tb. exact Hf.
    - pose proof (rd_terms_parts _ _ Hf) as H2. destruct (parts OR ts) as [|p [|p' ps]] eqn:Hp; [inversion H2; subst; cbn in Hl; lia|inversion H2 as [|? ? ? ? ? H3]; subst; inversion H3; subst; cbn in Hl; lia|].
      exists ns. split; [|reflexivity]. clear -H2. induction H2; constructor; auto using rd_term_tb.
  Qed.

  (** ** The shape of a level, on tokens and on the tree *)
  Lemma attr_first ta q i : sp_attr ta q i -> exists k x, ta = k :: x /\ name_tok k.
  Proof. intros H. inversion H; subst; eauto. Qed.
  Lemma name_not k ty : name_tok k -> ~ In ty [IDENTIFIER; WITHIN; SIMPLE_WITHIN_SCOPE; REGEXP_FLAGS] -> t_type k <> ty.
  Proof. unfold name_tok. intros H Hn <-. auto. Qed.
  Lemma rd_factor_nots ts n : rd_factor ts n -> leading_nots ts = nots_of n.
  Proof.
    intros H. remember H as H0 eqn:He. clear He. revert H0. apply (rd_factor_mind E C (fun _ _ => True) (fun _ _ => True) (fun _ _ => True) (fun _ _ => True) (fun ts n => rd_factor ts n -> leading_nots ts = nots_of n)); auto.
    - intros ta o tr q i op v fl H1 H2 H3 _. destruct (attr_first _ _ _ H1) as (k & x & -> & Hk). cbn [app leading_nots nots_of].
      unfold ttype_eqb. destruct (ttype_eq_dec NOT (t_type k)) as [He|]; [|reflexivity]. exfalso. revert He. apply not_eq_sym, name_not; [exact Hk|cbn; intuition discriminate].
    - intros l ts0 r n0 H1 H2 _ H3 _. cbn [leading_nots nots_of]. rewrite H1. reflexivity.
    - intros k ts0 n0 Hk H2 IH _. cbn [leading_nots nots_of]. rewrite Hk. cbn. auto.
  Qed.
  Lemma rd_term_shape ts n : rd_term ts n -> map leading_nots (parts AND ts) = map nots_of (factors_of n).
  Proof.
    intros H. inversion H as [? ? Hf|? ns Hf Hl]; subst.
    - rewrite (factor_parts AND _ _ (or_introl eq_refl) Hf). unfold factors_of. destruct (factor_payload _ _ Hf) as [H1 _]. destruct (q_payload n); try contradiction; cbn; rewrite (rd_factor_nots _ _ Hf); reflexivity.
    - cbn [factors_of q_payload q_children]. pose proof (rd_factors_parts _ _ Hf) as H2. clear -H2. induction H2 as [|? ? ? ? H]; [reflexivity|]. cbn. rewrite (rd_factor_nots _ _ H), IHForall2. reflexivity.
  Qed.
  Lemma rd_level_shape ts n : rd_level ts n -> shape ts = tree_shape n.
  Proof.
    intros H. unfold shape, tree_shape. inversion H as [? ? Hf|? ns Hf Hl]; subst.
    - rewrite (term_parts _ _ Hf). unfold terms_of. pose proof (term_payload _ _ Hf) as H1. destruct (q_payload n); try contradiction; cbn; rewrite (rd_term_shape _ _ Hf); reflexivity.
    - cbn [terms_of q_payload q_children]. pose proof (rd_terms_parts _ _ Hf) as H2. clear -H2. induction H2 as [|? ? ? ? H]; [reflexivity|]. cbn. rewrite (rd_term_shape _ _ H), IHForall2. reflexivity.
  Qed.

  (** ** Splitting a comparison *)
  Lemma op_first o op : sp_op o op -> t_type o = OPERATOR_EQ \/ t_type o = OPERATOR_NE.
  Proof. intros H. inversion H; subst; auto. Qed.
  Lemma basic_split ta o tr q i op v fl ta' o' tr' q' i' op' v' fl' : sp_attr ta q i -> sp_op o op -> sp_regex tr v fl ->
    sp_attr ta' q' i' -> sp_op o' op' -> sp_regex tr' v' fl' -> ta ++ o :: tr = ta' ++ o' :: tr' -> q = q' /\ i = i' /\ op = op' /\ v = v' /\ fl = fl'.
  Proof.
    intros Ha Ho Hr Ha' Ho' Hr' He. inversion Ha as [k Hk|k c k2 Hk Hc Hk2]; subst; inversion Ha' as [k' Hk'|k' c' k2' Hk' Hc' Hk2']; subst; cbn [app] in He.
    - injection He as -> -> ->. rewrite (sp_op_fun _ _ _ Ho Ho'). destruct (sp_regex_fun _ _ _ _ _ Hr Hr') as [-> ->]. auto.
    - injection He as -> -> _. exfalso. unfold is_tok in *. apply op_first in Ho. rewrite Hc' in Ho. destruct Ho; discriminate.
    - injection He as -> <- _. exfalso. unfold is_tok in *. apply op_first in Ho'. rewrite Hc in Ho'. destruct Ho'; discriminate.
    - injection He as -> -> -> -> ->. rewrite (sp_op_fun _ _ _ Ho Ho'). destruct (sp_regex_fun _ _ _ _ _ Hr Hr') as [-> ->]. auto.
  Qed.
  Lemma name_tok_ne k ty : name_tok k -> is_tok ty k -> In ty [IDENTIFIER; WITHIN; SIMPLE_WITHIN_SCOPE; REGEXP_FLAGS].
  Proof. unfold name_tok, is_tok. intros H <-. exact H. Qed.
  Lemma name_clash k ty : name_tok k -> is_tok ty k -> In ty [L_PAREN; NOT] -> False.
  Proof. intros H H' Hi. pose proof (name_tok_ne _ _ H H') as G. cbn in G, Hi. intuition congruence. Qed.
  Lemma attr_clash ta o (tr : list token) q i k x ty : sp_attr ta q i -> ta ++ o :: tr = k :: x -> is_tok ty k -> In ty [L_PAREN; NOT] -> False.
  Proof. intros H He Hk Hi. destruct (attr_first _ _ _ H) as (a & y & -> & Ha). cbn in He. injection He as <- _. eapply name_clash; eassumption. Qed.

  (** ** The reading of a level is unique *)
  Lemma rd_unique :
    (forall ts a, rd_level ts a -> forall b, rd_level ts b -> a = b) /\
    (forall ts a, rd_terms ts a -> forall b, Forall2 rd_term (parts OR ts) b -> a = b) /\
    (forall ts a, rd_term ts a -> forall b, rd_term ts b -> a = b) /\
    (forall ts a, rd_factors ts a -> forall b, Forall2 rd_factor (parts AND ts) b -> a = b) /\
    (forall ts a, rd_factor ts a -> forall b, rd_factor ts b -> a = b).
  Proof.
    apply (rd_level_mutind E C (fun ts a => forall b, rd_level ts b -> a = b) (fun ts a => forall b, Forall2 rd_term (parts OR ts) b -> a = b)
      (fun ts a => forall b, rd_term ts b -> a = b) (fun ts a => forall b, Forall2 rd_factor (parts AND ts) b -> a = b) (fun ts a => forall b, rd_factor ts b -> a = b)).
    - intros ts n Ht IH b Hb. inversion Hb as [? ? Hb1|? ns Hb1 Hl]; subst; [auto|]. exfalso. apply rd_terms_parts in Hb1. rewrite (term_parts _ _ Ht) in Hb1. inversion Hb1 as [|? ? ? ? ? H3]; subst. inversion H3; subst. cbn in Hl. lia.
    - intros ts ns Ht IH Hl b Hb. inversion Hb as [? ? Hb1|? ns' Hb1 Hl']; subst.
      + exfalso. apply rd_terms_parts in Ht. rewrite (term_parts _ _ Hb1) in Ht. inversion Ht as [|? ? ? ? ? H3]; subst. inversion H3; subst. cbn in Hl. lia.
      + rewrite (IH ns'); [reflexivity|]. apply rd_terms_parts. exact Hb1.
    - intros ts n Ht IH b Hb. rewrite (term_parts _ _ Ht) in Hb. inversion Hb as [|? y ? ? H1 H2]; subst. inversion H2; subst. rewrite (IH y H1). reflexivity.
    - intros ts n k ts' ns Ht IH Hk Hts IH' b Hb. rewrite parts_sep in Hb by (auto; eapply term_clean; exact Ht). inversion Hb as [|? y ? l H1 H2]; subst. rewrite (IH y H1), (IH' l H2). reflexivity.
    - intros ts n Ht IH b Hb. inversion Hb as [? ? Hb1|? ns Hb1 Hl]; subst; [auto|]. exfalso. apply rd_factors_parts in Hb1. rewrite (factor_parts AND _ _ (or_introl eq_refl) Ht) in Hb1. inversion Hb1 as [|? ? ? ? ? H3]; subst. inversion H3; subst. cbn in Hl. lia.
    - intros ts ns Ht IH Hl b Hb. inversion Hb as [? ? Hb1|? ns' Hb1 Hl']; subst.
      + exfalso. apply rd_factors_parts in Ht. rewrite (factor_parts AND _ _ (or_introl eq_refl) Hb1) in Ht. inversion Ht as [|? ? ? ? ? H3]; subst. inversion H3; subst. cbn in Hl. lia.
      + rewrite (IH ns'); [reflexivity|]. apply rd_factors_parts. exact Hb1.
    - intros ts n Ht IH b Hb. rewrite (factor_parts AND _ _ (or_introl eq_refl) Ht) in Hb. inversion Hb as [|? y ? ? H1 H2]; subst. inversion H2; subst. rewrite (IH y H1). reflexivity.
    - intros ts n k ts' ns Ht IH Hk Hts IH' b Hb. rewrite parts_sep in Hb by (auto; eapply factor_clean; exact Ht). inversion Hb as [|? y ? l H1 H2]; subst. rewrite (IH y H1), (IH' l H2). reflexivity.
    - intros ta o tr q i op v fl Ha Ho Hr b Hb. inversion Hb as [ta' o' tr' q' i' op' v' fl' Ha' Ho' Hr' He|l ts r n Hl Hn Hr' He|k ts n Hk Hn He]; subst.
      + destruct (basic_split _ _ _ _ _ _ _ _ _ _ _ _ _ _ _ _ Ha' Ho' Hr' Ha Ho Hr He) as (-> & -> & -> & -> & ->). rewrite He. reflexivity.
      + exfalso. eapply attr_clash; [exact Ha|symmetry; exact He|exact Hl|cbn; auto].
      + exfalso. eapply attr_clash; [exact Ha|symmetry; exact He|exact Hk|cbn; auto].
    - intros l ts r n Hl Hn IH Hr b Hb. inversion Hb as [ta' o' tr' q' i' op' v' fl' Ha' Ho' Hr' He|l' ts' r' n' Hl' Hn' Hr' He|k ts' n' Hk Hn' He]; subst.
      + exfalso. eapply attr_clash; [exact Ha'|exact He|exact Hl|cbn; auto].
      + match goal with He : _ ++ [_] = _ ++ [_] |- _ => apply app_inj_tail in He; destruct He as [-> ->] end. rewrite (IH n' Hn'). reflexivity.
      + exfalso. unfold is_tok in *. congruence.
    - intros k ts n Hk Hn IH b Hb. inversion Hb as [ta' o' tr' q' i' op' v' fl' Ha' Ho' Hr' He|l' ts' r' n' Hl' Hn' Hr' He|k' ts' n' Hk' Hn' He]; subst.
      + exfalso. eapply attr_clash; [exact Ha'|exact He|exact Hk|cbn; auto].
      + exfalso. unfold is_tok in *. congruence.
      + rewrite (IH n' Hn'). reflexivity.
  Qed.
End Facts.
