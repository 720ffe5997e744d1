(** Wordings of one query. *)
From Coq Require Import String.
From Verif Require Import Base Regex LexRules Lexer Grammar Antlr Ast Builder Parser LexSpec LitSpec LexFacts LexThms
  GramSpec GramFacts ValueSpec ValueFacts SpellSpec BuilderFacts BuilderRules ParseSpec ParseFacts LevelFacts SelFacts PrecFacts PrecConv EvFacts SimFacts
  TreeSpec TreeFacts SitFacts LevelSpec LevelThm SpellComplete QuerySpec QueryThm SubEv PropsParse PropsTree ReadSpec ReadFacts ReadQuery WriteFacts MeanSpec MeanFacts Outer Local ComposeSpec LexJoin Compose ComposeWalk SynSpec.
Local Open Scope Z_scope.

Scheme same_item_mind := Minimality for same_item Sort Prop
  with same_items_mind := Minimality for same_items Sort Prop
  with same_alts_mind := Minimality for same_alts Sort Prop.
Combined Scheme same_item_mutind from same_item_mind, same_items_mind, same_alts_mind.

Lemma erase_class n : q_class (erase n) = q_class n.
Proof. destruct n; reflexivity. Qed.
Section Syn.
  Variables (E : penv) (C : pcfg).
  Notation lv := (lv E C).
  Notation inside := (same_inside E C).
  Notation alike := (says_if (fun w w' => decodable w' /\ regexp_value E C w = regexp_value E C w') E).

  (** ** Same tree, same words *)
  Lemma inside_app x x' y y' : inside x x' -> inside y y' -> inside (x ++ y) (x' ++ y').
  Proof.
    induction 1 as [|k k' x x' Hk Hk' _ IH|ta o tr ta' o' tr' q i op v fl x x' A A' O O' T T' _ IH]; intros Hy; [exact Hy| |].
    - cbn [app]. apply si_mark; auto.
    - rewrite <- (app_assoc (ta ++ o :: tr)), <- (app_assoc (ta' ++ o' :: tr')). eapply si_basic; eauto.
  Qed.
  Lemma inside_mark k k' : t_type k' = t_type k -> In (t_type k) [L_PAREN; R_PAREN; AND; OR; NOT] -> inside [k] [k'].
  Proof. intros H H'. apply si_mark; auto. constructor. Qed.
  Lemma tree_inside :
    (forall ts n, sp_expr E C ts n -> forall ts' n', sp_expr E C ts' n' -> erase n = erase n' -> inside ts ts') /\
    (forall sep ts ns, sp_exprs E C sep ts ns -> In sep [AND; OR] -> forall ts' ns', sp_exprs E C sep ts' ns' -> map erase ns = map erase ns' -> inside ts ts').
  Proof.
    apply sp_expr_mutind.
    - intros ta o tr q i op v fl Ha Ho Hr ts' n' H' He. inversion H'; subst; cbn [erase map] in He; try discriminate He. injection He as -> -> -> -> ->.
      rewrite <- (app_nil_r (ta ++ _)). rewrite <- (app_nil_r (ta0 ++ _)). eapply si_basic; eauto. constructor.
    - intros l ts r n Hl _ IH Hr ts' n' H' He. inversion H' as [|l' tc' r' m Hl' Hm Hr'| | |]; subst; cbn [erase map] in He; try discriminate He. injection He as He.
      unfold is_tok in *. apply (inside_app [l] [l']); [apply inside_mark; [congruence|rewrite Hl; cbn; tauto]|].
      apply inside_app; [eapply IH; eassumption|apply inside_mark; [congruence|rewrite Hr; cbn; tauto]].
    - intros k ts n Hk _ IH ts' n' H' He. inversion H' as [| |k' tc' m Hk' Hm| |]; subst; cbn [erase map] in He; try discriminate He. injection He as He.
      unfold is_tok in *. apply (inside_app [k] [k']); [apply inside_mark; [congruence|rewrite Hk; cbn; tauto]|eapply IH; eassumption].
    - intros ts ns _ IH _ _ _ ts' n' H' He. inversion H' as [| | |t' ns' Hs|]; subst; cbn [erase] in He; try discriminate He. injection He as He.
      eapply IH; [cbn; tauto|exact Hs|exact He].
    - intros ts ns _ IH _ _ ts' n' H' He. inversion H' as [| | | |t' ns' Hs]; subst; cbn [erase] in He; try discriminate He. injection He as He.
      eapply IH; [cbn; tauto|exact Hs|exact He].
    - intros sep ts n _ IH _ ts' ns' H' He. inversion H' as [? ? m Hm|? ? m ? ? ms ? ? Hms]; subst; cbn [map] in He; injection He as He; [eapply IH; eassumption|].
      exfalso. inversion Hms; subst; discriminate.
    - intros sep ts n k ts' ns _ IH Hk Hns IH' Hsep ts2 ns2 H' He. inversion H' as [? ? m Hm|? t m k' t' ms Hm Hk' Hms]; subst; cbn [map] in He; injection He as He1 He.
      + exfalso. destruct ns; [|discriminate]. inversion Hns.
      + unfold is_tok in *. apply inside_app; [eapply IH; eassumption|].
        apply (inside_app [k] [k']); [apply inside_mark; [congruence|rewrite Hk; cbn in *; tauto]|eapply IH'; eassumption].
  Qed.

  Notation o_item := (o_item E C lv). Notation o_seq := (o_seq E C lv). Notation o_operand := (o_operand E C lv).
  Notation o_operands := (o_operands E C lv). Notation o_content := (o_content E C lv).
  Lemma expr_asks l te r q i op v fl loc ch : is_tok L_SQUARE_BRACKET l -> is_tok R_SQUARE_BRACKET r ->
    sp_expr E C te (QN (PExpr q i op v fl) loc ch) -> asks_for E C (l :: te ++ [r]) (PExpr q i op v fl) /\ ch = [].
  Proof. intros Hl Hr H. inversion H; subst. split; [apply af_brackets; assumption|reflexivity]. Qed.
  Lemma brackets_core (l : token) te r tq : l :: te ++ r :: tq = (l :: te ++ [r]) ++ tq.
  Proof. cbn [app]. rewrite <- app_assoc. reflexivity. Qed.
  Lemma tree_same :
    (forall ts n, o_item ts n -> forall ts' n', o_item ts' n' -> erase n = erase n' -> same_item E C ts ts') /\
    (forall ts ns, o_seq ts ns -> forall ts' ns', o_seq ts' ns' -> map erase ns = map erase ns' -> same_items E C ts ts') /\
    (forall ts n, o_operand ts n -> forall ts' n', o_operand ts' n' -> erase n = erase n' -> same_items E C ts ts') /\
    (forall ts ns, o_operands ts ns -> forall ts' ns', o_operands ts' ns' -> map erase ns = map erase ns' -> same_alts E C ts ts') /\
    (forall ts n, o_content ts n -> forall ts' n', o_content ts' n' -> erase n = erase n' -> same_alts E C ts ts').
  Proof.
    apply (o_item_mutind E C lv (fun ts n => forall ts' n', o_item ts' n' -> erase n = erase n' -> same_item E C ts ts') (fun ts ns => forall ts' ns', o_seq ts' ns' -> map erase ns = map erase ns' -> same_items E C ts ts')
      (fun ts n => forall ts' n', o_operand ts' n' -> erase n = erase n' -> same_items E C ts ts') (fun ts ns => forall ts' ns', o_operands ts' ns' -> map erase ns = map erase ns' -> same_alts E C ts ts') (fun ts n => forall ts' n', o_content ts' n' -> erase n = erase n' -> same_alts E C ts ts')).
    - intros tr tq v fl mn mx Hr Hq ts' n' H' He. inversion H' as [tr' tq' v' fl' mn' mx' Hr' Hq'|l' r' tq' mn' mx' Hl' Hr' Hq'|l' te' r' tq' c' mn' mx' Hl' Hc' Hr' Hq'|]; subst; cbn [erase map] in He; try discriminate He.
      + injection He as <- <- <- <-. eapply sit_asks; eauto using af_literal.
      + destruct c' as [p' loc' ch']. cbn [erase] in He. injection He as <- <- <- _. apply lv_sp in Hc'.
        destruct (expr_asks _ _ _ _ _ _ _ _ _ _ Hl' Hr' Hc') as [Ha _]. rewrite brackets_core. eapply sit_asks; eauto using af_literal.
    - intros l r tq mn mx Hl Hr Hq ts' n' H' He. inversion H' as [tr' tq' v' fl' mn' mx' Hr' Hq'|l' r' tq' mn' mx' Hl' Hr' Hq'|l' te' r' tq' c' mn' mx' Hl' Hc' Hr' Hq'|]; subst; cbn [erase map] in He; try discriminate He.
      + injection He as <- <-. eapply sit_any; eauto.
      + exfalso. destruct c' as [p' loc' ch']. cbn [erase] in He. injection He as _ _ <- _. apply lv_sp in Hc'. inversion Hc'.
    - intros l te r tq c mn mx Hl Hc Hr Hq ts' n' H' He. apply lv_sp in Hc. inversion H' as [tr' tq' v' fl' mn' mx' Hr' Hq'|l' r' tq' mn' mx' Hl' Hr' Hq'|l' te' r' tq' c' mn' mx' Hl' Hc' Hr' Hq'|]; subst; cbn [erase map] in He; try discriminate He.
      + destruct c as [p loc ch]. cbn [erase] in He. injection He as -> -> -> _.
        destruct (expr_asks _ _ _ _ _ _ _ _ _ _ Hl Hr Hc) as [Ha _]. rewrite brackets_core. eapply sit_asks; eauto using af_literal.
      + exfalso. destruct c as [p loc ch]. cbn [erase] in He. injection He as _ _ -> _. inversion Hc.
      + injection He as <- <- He. apply lv_sp in Hc'. eapply sit_inside; eauto. eapply (proj1 tree_inside); eassumption.
    - intros l tc r tq c mn mx Hl Hc IH Hr Hq ts' n' H' He. inversion H' as [| | |l' tc' r' tq' c' mn' mx' Hl' Hc' Hr' Hq']; subst; cbn [erase map] in He; try discriminate He.
      injection He as <- <- He. eapply sit_group; eauto.
    - intros ts n Hn IH ts' ns' H' He. inversion H' as [? m Hm|t m t' ms Hm Hms]; subst; cbn [map] in He; injection He as He; [apply sis_one; eapply IH; eassumption|].
      exfalso. inversion Hms; subst; discriminate.
    - intros ts n ts' ns Hn IH Hns IH' t2 ns2 H' He. inversion H' as [? m Hm|t m t' ms Hm Hms]; subst; cbn [map] in He; injection He as He1 He.
      + exfalso. destruct ns; [|discriminate]. inversion Hns.
      + apply sis_more; [eapply IH; eassumption|eapply IH'; eassumption].
    - intros ts n Hn IH Hc ts' n' H' He. inversion H' as [? ? Hm Hc'|? ns' Hs']; subst; [apply sis_one; eapply IH; eassumption|].
      exfalso. destruct n as [p loc ch]. cbn [erase] in He. injection He as -> _. discriminate Hc.
    - intros ts ns Hs IH _ ts' n' H' He. inversion H' as [? ? Hm Hc'|? ns' Hs']; subst; cbn [erase] in He.
      + exfalso. destruct n' as [p loc ch]. cbn [erase] in He. injection He as <- _. discriminate Hc'.
      + injection He as He. eapply IH; eassumption.
    - intros ts n Hn IH ts' ns' H' He. inversion H' as [? m Hm|t m k t' ms Hm Hk Hms]; subst; cbn [map] in He; injection He as He; [apply sas_one; eapply IH; eassumption|].
      exfalso. inversion Hms; subst; discriminate.
    - intros ts n k ts' ns Hn IH Hk Hns IH' t2 ns2 H' He. inversion H' as [? m Hm|t m k' t' ms Hm Hk' Hms]; subst; cbn [map] in He; injection He as He1 He.
      + exfalso. destruct ns; [|discriminate]. inversion Hns.
      + apply sas_more; auto; [eapply IH; eassumption|eapply IH'; eassumption].
    - intros ts ns Hs IH ts' n' H' He. inversion H' as [? ns' Hs'|]; subst; cbn [erase] in He; [|discriminate]. injection He as He. apply sas_one. eapply IH; eassumption.
    - intros ts ns Hs IH _ ts' n' H' He. inversion H' as [|? ns' Hs']; subst; cbn [erase] in He; [discriminate|]. injection He as He. eapply IH; eassumption.
  Qed.
  Lemma item_payload ts n : o_item ts n -> exists mn mx, q_payload n = PSegment mn mx \/ q_payload n = PQGroup mn mx.
  Proof. intros H. inversion H; subst; cbn; eauto. Qed.
  Lemma tree_main ts n ts' n' : o_main E C lv ts n -> o_main E C lv ts' n' -> erase n = erase n' -> same_alts E C ts ts'.
  Proof.
    destruct tree_same as (A & B & _ & D & _). intros H H' He.
    assert (X : forall t m p ch, o_item t m -> p = PSequence \/ p = PDisjunction -> erase m = QN p None ch -> False).
    { intros t m p ch Hi Hp Hm. destruct (item_payload _ _ Hi) as (mn & mx & Hx). destruct m as [pm lm cm]. cbn in *. injection Hm as -> _. destruct Hx, Hp; congruence. }
    inversion H as [? ? Hi|? ns Hs Hl|? ns Ho Hl]; subst; inversion H' as [? ? Hi'|? ns' Hs' Hl'|? ns' Ho' Hl']; subst; cbn [erase] in He; try discriminate He.
    - apply sas_one, sis_one. eapply A; eassumption.
    - exfalso. eapply X; [exact Hi|left; reflexivity|exact He].
    - exfalso. eapply X; [exact Hi|right; reflexivity|exact He].
    - exfalso. symmetry in He. eapply X; [exact Hi'|left; reflexivity|exact He].
    - injection He as He. apply sas_one. eapply B; eassumption.
    - exfalso. symmetry in He. eapply X; [exact Hi'|right; reflexivity|exact He].
    - injection He as He. eapply D; eassumption.
  Qed.
  Lemma main_payload ts n : o_main E C lv ts n -> q_payload n <> PWithWithin.
  Proof. intros H. inversion H as [? ? Hi| |]; subst; try discriminate. destruct (item_payload _ _ Hi) as (mn & mx & [->| ->]); discriminate. Qed.
  Lemma tree_query ts n ts' n' : o_query E C lv ts n -> o_query E C lv ts' n' -> erase n = erase n' -> same_query E C ts ts'.
  Proof.
    intros H H' He. inversion H as [t m e Hm Hx|t m w k sc e Hm Hw Hk Hsc Hx]; subst; inversion H' as [t' m' e' Hm' Hx'|t' m' w' k' sc' e' Hm' Hw' Hk' Hsc' Hx']; subst.
    - apply sqr_plain; auto. eapply tree_main; eassumption.
    - exfalso. apply main_payload in Hm. destruct n as [p lo ch]. cbn [erase] in He. injection He as -> _. apply Hm. reflexivity.
    - exfalso. apply main_payload in Hm'. destruct n' as [p lo ch]. cbn [erase] in He. injection He as <- _. apply Hm'. reflexivity.
    - cbn [erase map] in He. injection He as He Hs. subst sc'. eapply sqr_within; eauto. eapply tree_main; eassumption.
  Qed.

  (** ** Same words, same tree *)
  Lemma alike_cons (R : pystr -> pystr -> Prop) a a' x x' : t_type a = t_type a' -> (t_type a = REGEXP -> R (t_text a) (t_text a')) ->
    (t_type a = INTEGER -> dec_value (t_text a) = dec_value (t_text a') /\ int_ok E (t_text a')) ->
    (forall b r b' r', x = b :: r -> x' = b' :: r' ->
      (In (t_type b) [COLON; OPERATOR_EQ; OPERATOR_NE] -> t_type a <> REGEXP -> t_text a = t_text a') /\
      (t_type a = FWD_SLASH -> t_type b = REGEXP_FLAGS -> exists S, flags_denote (t_text b) S /\ flags_denote (t_text b') S) /\
      (t_type a = WITHIN -> t_type b = SIMPLE_WITHIN_SCOPE -> exists sc, scope_word (t_text b) sc /\ scope_word (t_text b') sc)) ->
    says_if R E x x' -> says_if R E (a :: x) (a' :: x').
  Proof.
    intros H1 H2 H3 H4 [Ht H]. split; [cbn [map]; congruence|]. intros [|i] c c' Hc Hc'; [|exact (H i c c' Hc Hc')].
    cbn in Hc, Hc'. injection Hc as <-. injection Hc' as <-. split; [exact H2|]. split; [exact H3|]. intros b b' Hb Hb'. cbn [nth_error] in Hb, Hb'.
    destruct x as [|b0 r]; [discriminate|]. destruct x' as [|b0' r']; [discriminate|]. cbn in Hb, Hb'. injection Hb as <-. injection Hb' as <-. eapply H4; reflexivity.
  Qed.
  Lemma inside_head x x' b r : inside x x' -> x = b :: r -> ~ In (t_type b) [COLON; OPERATOR_EQ; OPERATOR_NE].
  Proof.
    intros H. destruct H as [|k k' x x' Hk Hk' H|ta o tr ta' o' tr' q i op v fl x x' A A' O O' T T' H]; intros He; [discriminate| |].
    - injection He as -> _. clear -Hk. cbn in *. intros H. destruct (t_type b); repeat (destruct Hk as [Hk|Hk]; try discriminate Hk); repeat (destruct H as [H|H]; try discriminate H); assumption.
    - assert (Hn : name_tok b). { inversion A; subst; cbn in He; injection He as -> _; assumption. }
      clear -Hn. unfold name_tok in Hn. cbn in *. intros H. destruct (t_type b); repeat (destruct Hn as [Hn|Hn]; try discriminate Hn); repeat (destruct H as [H|H]; try discriminate H); assumption.
  Qed.
  Lemma same_type a a' : typed a -> typed a' -> t_text a = t_text a' -> t_type a = t_type a'.
  Proof. unfold typed. intros H H' He. rewrite He in H. eapply first_rule_det; eassumption. Qed.
  Lemma name_kind a ty : name_tok a -> In ty [REGEXP; INTEGER; FWD_SLASH; COLON] -> t_type a <> ty.
  Proof. unfold name_tok. cbn. intros H H' He. rewrite He in H. destruct ty; repeat (destruct H as [H|H]; try discriminate H); repeat (destruct H' as [H'|H']; try discriminate H'); assumption. Qed.
  Lemma alike_regex tr tr' v fl x x' : sp_regex E C tr v fl -> sp_regex E C tr' v fl ->
    (forall b r, x = b :: r -> ~ In (t_type b) [COLON; OPERATOR_EQ; OPERATOR_NE]) -> alike x x' -> alike (tr ++ x) (tr' ++ x').
  Proof.
    assert (L : forall w v, literal_means w v -> regexp_value E C w = Ok (normalised E C v)).
    { intros w v0 Hw. destruct (regexp_value_spec E C w) as [(z & Hz & ->)|[Hn _]]; [|rewrite (literal_means_det _ _ _ Hw Hz); reflexivity|exfalso; apply Hn; exists v0; exact Hw].
      destruct Hw as (q & es & A & B & D & _). exists q, es. auto. }
    assert (V : forall k k' v0 v1, literal_means (t_text k) v0 -> literal_means (t_text k') v1 -> normalised E C v0 = normalised E C v1 ->
      decodable (t_text k') /\ regexp_value E C (t_text k) = regexp_value E C (t_text k')).
    { intros k k' v0 v1 H0 H1 He. split; [exists v1; exact H1|]. rewrite (L _ _ H0), (L _ _ H1), He. reflexivity. }
    unfold is_tok in *. intros H H' Hx Ha. inversion H as [k v0 Hk Hv0|k s f v0 S Hk Hs Hf Hv0 HS HC]; subst; inversion H' as [k' v1 Hk' Hv1 E1 E2|k' s' f' v1 S' Hk' Hs' Hf' Hv1 HS' HC' E1 E2]; subst; unfold is_tok in *; cbn [app].
    - apply alike_cons; [congruence|intros _; eapply V; eauto|congruence| |exact Ha]. intros b r b' r' -> ->. split; [congruence|]. split; congruence.
    - apply alike_cons; [congruence|intros _; eapply V; eauto|congruence| |].
      + intros b r b' r' Hb Hb'. split; [congruence|]. split; congruence.
      + apply alike_cons; [congruence|congruence|congruence| |].
        * intros b r b' r' Hb Hb'. injection Hb as <- _. injection Hb' as <- _. split; [rewrite Hf; cbn; intros [D|[D|[D|[]]]]; discriminate D|]. split; [|congruence]. intros _ _. exists S. auto.
        * apply alike_cons; [congruence|congruence|congruence| |exact Ha]. intros b r b' r' Hb Hb'. split; [|split; congruence]. intros Hin. exfalso. exact (Hx _ _ Hb Hin).
  Qed.
  Lemma alike_op o o' op x x' : sp_op o op -> sp_op o' op -> (exists b r, x = b :: r /\ t_type b = REGEXP) -> alike x x' -> alike (o :: x) (o' :: x').
  Proof.
    intros O O' (b0 & r0 & -> & Hb0) Ha. inversion O as [? H|? H]; subst; inversion O' as [? H'|? H']; subst; unfold is_tok in *; (apply alike_cons; [congruence|congruence|congruence| |exact Ha]);
      intros b r b' r' Hb Hb'; injection Hb as <- _; (split; [rewrite Hb0; cbn; intros [D|[D|[D|[]]]]; discriminate D|]); split; congruence.
  Qed.
  Lemma alike_name a a' x x' : name_tok a -> typed a -> typed a' -> t_text a = t_text a' ->
    (exists b r, x = b :: r /\ t_type b <> SIMPLE_WITHIN_SCOPE) -> alike x x' -> alike (a :: x) (a' :: x').
  Proof.
    intros Hn T T' He (b0 & r0 & -> & Hb0) Ha. apply alike_cons; [apply same_type; assumption| | | |exact Ha].
    - intros H. exfalso. eapply (name_kind a REGEXP); [exact Hn|cbn; tauto|exact H].
    - intros H. exfalso. eapply (name_kind a INTEGER); [exact Hn|cbn; tauto|exact H].
    - intros b r b' r' Hb _. injection Hb as <- _. split; [auto|]. split; [|congruence]. intros H. exfalso. eapply (name_kind a FWD_SLASH); [exact Hn|cbn; tauto|exact H].
  Qed.
  Lemma inside_alike x x' : inside x x' -> Forall typed x -> Forall typed x' -> alike x x'.
  Proof.
    induction 1 as [|k k' x x' Hk Hk' Hx IH|ta o tr ta' o' tr' q i op v fl x x' A A' O O' T T' Hx IH]; intros Ty Ty'.
    - split; [reflexivity|]. intros [|j]; discriminate.
    - inversion Ty; subst. inversion Ty'; subst. assert (M : forall ty, In ty [REGEXP; INTEGER; FWD_SLASH; WITHIN] -> t_type k <> ty).
      { clear -Hk. intros ty H He. rewrite He in Hk. cbn in *. destruct ty; repeat (destruct Hk as [Hk|Hk]; try discriminate Hk); repeat (destruct H as [H|H]; try discriminate H); assumption. }
      apply alike_cons; [congruence| | | |auto].
      + intros H. exfalso. eapply M; [|exact H]. cbn; tauto.
      + intros H. exfalso. eapply M; [|exact H]. cbn; tauto.
      + intros b r b' r' Hb _. split; [intros Hin; exfalso; eapply inside_head; eassumption|]. split; intros H; exfalso; (eapply M; [|exact H]); cbn; tauto.
    - apply Forall_app in Ty. destruct Ty as [Ty1 Ty2]. apply Forall_app in Ty'. destruct Ty' as [Ty1' Ty2']. specialize (IH Ty2 Ty2').
      rewrite <- (app_assoc ta), <- (app_assoc ta'). cbn [app].
      assert (B : alike (o :: tr ++ x) (o' :: tr' ++ x')).
      { eapply alike_op; [exact O|exact O'| |]. - inversion T; subst; cbn; eauto. - eapply alike_regex; [exact T|exact T'| |exact IH]. intros b r Hb. eapply inside_head; eassumption. }
      assert (Ko : t_type o <> SIMPLE_WITHIN_SCOPE) by (inversion O as [? H|? H]; subst; rewrite H; discriminate).
      clear IH Hx. apply Forall_app in Ty1. apply Forall_app in Ty1'. destruct Ty1 as [Ta _]. destruct Ty1' as [Ta' _].
      inversion A as [i0 Hi|q0 c i0 Hq Hc Hi]; subst; inversion A' as [i1 Hi' E1 E2|q1 c1 i1 Hq' Hc' Hi' E1 E2]; subst; cbn [app].
      + inversion Ta; subst. inversion Ta'; subst. apply alike_name; auto. eauto.
      + inversion Ta as [|? ? Y1 Z1]; subst. inversion Z1 as [|? ? _ Z2]; subst. inversion Z2; subst. inversion Ta' as [|? ? Y1' Z1']; subst. inversion Z1' as [|? ? _ Z2']; subst. inversion Z2'; subst.
        unfold is_tok in *. apply alike_name; auto; [eexists; eexists; split; [reflexivity|congruence]|].
        apply alike_cons; [congruence|congruence|congruence| |apply alike_name; auto; eauto].
        intros b r b' r' Hb _. injection Hb as <- _. split; [|split; congruence]. intros Hin. exfalso. revert Hi Hin. clear. unfold name_tok. cbn. intros H H'. destruct (t_type i0); repeat (destruct H as [H|H]; try discriminate H); repeat (destruct H' as [H'|H']; try discriminate H'); assumption.
  Qed.

  (** ** Every expression has a reading *)
  Lemma ext_drv ts n : sp_expr E C ts n -> viable [E5] (map t_type ts).
  Proof.
    intros H. apply viable_one. pose proof (proj1 (drv_expr E C) _ _ H) as Hk. apply kid_all in Hk. destruct Hk as (x & Hd & Hl). exists x. split; [exact Hd|]. unfold ttypes. rewrite Hl. reflexivity.
  Qed.
  Lemma lv_tree te : viable [E5] (map t_type te) -> Forall tok_ok te -> conds E te ->
    exists t c, parse_e (Z.to_nat (need [E5; Tk [R_SQUARE_BRACKET]] (S (List.length te)))) E5 [Tk [R_SQUARE_BRACKET]] (te ++ [rsb]) = Some ([t], [rsb]) /\
      derives E5 [t] /\ leaves t = te /\ ev E C t = Some c /\ lv te c.
  Proof.
    intros Hv Hk Hc.
    assert (Hv2 : viable [E5; Tk [R_SQUARE_BRACKET]] (map t_type (te ++ [rsb]))).
    { rewrite map_app. apply (viable_app2 [E5] [Tk [R_SQUARE_BRACKET]]); [exact Hv|]. apply viable_tk; [left; reflexivity|apply viable_nil]. }
    destruct (parse_e_selects (Z.to_nat (need [E5; Tk [R_SQUARE_BRACKET]] (S (List.length te)))) E5 [Tk [R_SQUARE_BRACKET]] (te ++ [rsb]) eq_refl) as (x & r & Hp & Hs & Hr); [rewrite app_length; cbn [List.length]; rewrite Nat.add_1_r; lia|exact Hv2|].
    destruct (selects_derives _ _ _ _ _ Hs) as [Hd Hl]. destruct (op_E5 _ Hd) as (t & -> & Hop).
    apply viable_tk_inv in Hr. destruct Hr as (ty & w & Hr & Hty & Hw). apply viable_nil_inv in Hw. subst w. destruct r as [|k [|? ?]]; try discriminate Hr.
    cbn [flat_map] in Hl. rewrite app_nil_r in Hl. apply app_inj_tail in Hl. destruct Hl as [Hl <-].
    assert (Hro : rooted t) by (destruct t; [destruct Hop|]; pose proof (derives_rooted _ _ Hd) as HF; inversion HF; subst; assumption).
    assert (Hso : sound E t) by (subst te; split; auto).
    destruct t as [k0|ru ch]; [destruct Hop|]. destruct (ev_sound E C ru ch Hso Hop) as (c & Hc1 & Hc2 & _).
    exists (Node ru ch), c. split; [exact Hp|]. split; [exact Hd|]. split; [auto|]. split; [exact Hc1|]. split; [rewrite Hl; exact Hc2|]. exists (Node ru ch). auto.
  Qed.
  Lemma typed_ok t : typed t -> tok_ok t.
  Proof. intros H. split; [intros _; apply first_rule_text; exact H|apply name_solid; exact H]. Qed.
  Lemma lv_both te te' : (exists e, sp_expr E C te e) -> inside te te' -> Forall typed te -> Forall typed te' -> conds E te ->
    exists c c', lv te c /\ lv te' c' /\ erase c = erase c'.
  Proof.
    intros (e & He) Hin Ty Ty' Hc. pose proof (inside_alike _ _ Hin Ty Ty') as Ha.
    assert (HR : forall w w', decodable w' /\ regexp_value E C w = regexp_value E C w' -> decodable w' /\ regexp_value E C w = regexp_value E C w') by auto.
    pose proof (same_conds _ _ _ HR _ _ Ha Hc) as Hc'. pose proof (same_types _ _ _ _ Ha) as Ht. pose proof (ext_drv _ _ He) as Hv.
    assert (Hk : Forall tok_ok te) by (eapply Forall_impl; [|exact Ty]; apply typed_ok). assert (Hk' : Forall tok_ok te') by (eapply Forall_impl; [|exact Ty']; apply typed_ok).
    destruct (lv_tree te Hv Hk Hc) as (t & c & Hp & Hd & Hl & Hev & Hlv).
    destruct (lv_tree te') as (t' & c' & Hp' & _ & Hl' & Hev' & Hlv'); [rewrite <- Ht; exact Hv|exact Hk'|exact Hc'|].
    exists c, c'. split; [exact Hlv|]. split; [exact Hlv'|].
    assert (Hlen : List.length te = List.length te') by (rewrite <- (map_length t_type te), Ht; apply map_length).
    assert (Hb : map blank (te ++ [rsb]) = map blank (te' ++ [rsb])) by (apply types_blank; rewrite !map_app, Ht; reflexivity).
    pose proof (parse_e_shape (Z.to_nat (need [E5; Tk [R_SQUARE_BRACKET]] (S (List.length te)))) E5 [Tk [R_SQUARE_BRACKET]] (te ++ [rsb])) as S1.
    pose proof (parse_e_shape (Z.to_nat (need [E5; Tk [R_SQUARE_BRACKET]] (S (List.length te')))) E5 [Tk [R_SQUARE_BRACKET]] (te' ++ [rsb])) as S2.
    rewrite Hp in S1. rewrite Hp', <- Hlen, <- Hb, S1 in S2. cbn [option_map map fst snd] in S2. injection S2 as S2.
    pose proof (derives_like E C _ HR _ _ Hd) as HL. inversion HL as [|? ? HL1 _]; subst.
    destruct (op_E5 _ Hd) as (t1 & E1 & Hop). injection E1 as <-. destruct t as [k0|ru ch]; [destruct Hop|]. cbn [like1] in HL1.
    assert (Hx : option_map erase (ev E C (Node ru ch)) = option_map erase (ev E C t')).
    { apply HL1; [destruct ru; try discriminate Hop; reflexivity|exact S2|]. unfold lk. auto. }
    rewrite Hev, Hev' in Hx. cbn [option_map] in Hx. injection Hx. auto.
  Qed.

  Lemma exprs_sep sep ts ns : sp_exprs E C sep ts ns -> (2 <= List.length ns)%nat -> exists k, In k ts /\ is_tok sep k.
  Proof. intros H Hl. inversion H as [|? t n k t' ns' Hn Hk Hs]; subst; [cbn in Hl; lia|]. exists k. split; [apply in_or_app; right; left; reflexivity|exact Hk]. Qed.
  Lemma basic_only ta o tr q i op v fl c : sp_attr ta q i -> sp_op o op -> sp_regex E C tr v fl -> sp_expr E C (ta ++ o :: tr) c ->
    c = QN (PExpr q i op v fl) (span (ta ++ o :: tr)) [].
  Proof.
    intros Ha Ho Hr H.
    assert (No : forall sep ns, (sep = AND \/ sep = OR) -> sp_exprs E C sep (ta ++ o :: tr) ns -> (2 <= List.length ns)%nat -> False).
    { intros sep ns Hsep Hs Hl. destruct (exprs_sep _ _ _ Hs Hl) as (k & Hin & Hk).
      assert (Hi : forallb inert (types (ta ++ o :: tr)) = true) by (rewrite map_app, forallb_app; cbn [map forallb]; rewrite (ReadFacts.attr_inert _ _ _ Ha), (op_inert _ _ Ho), (regex_inert _ _ _ _ _ Hr); reflexivity).
      rewrite forallb_forall in Hi. specialize (Hi (t_type k) (in_map _ _ _ Hin)). unfold is_tok in Hk. rewrite Hk in Hi. destruct Hsep; subst; discriminate Hi. }
    inversion H as [ta' o' tr' q' i' op' v' fl' Ha' Ho' Hr' He|l ts r n Hl Hn Hr' He|k ts n Hk Hn He|ts ns Hs Hl|ts ns Hs Hl]; subst.
    - rewrite He. destruct (basic_split _ _ _ _ _ _ _ _ _ _ _ _ _ _ _ _ _ _ Ha' Ho' Hr' Ha Ho Hr He) as (-> & -> & -> & -> & ->). reflexivity.
    - exfalso. eapply attr_clash; [exact Ha|symmetry; exact He|exact Hl|cbn; auto].
    - exfalso. eapply attr_clash; [exact Ha|symmetry; exact He|exact Hk|cbn; auto].
    - exfalso. eapply (No AND); eauto.
    - exfalso. eapply (No OR); eauto.
  Qed.

  (** ** Readings of both wordings *)
  Definition fit (x x' : list token) : Prop := Forall typed x /\ Forall typed x' /\ conds E x.
  Lemma fit_app x y x' y' : fit (x ++ y) (x' ++ y') -> fit x x' /\ fit y y'.
  Proof.
    intros (A & B & D). apply Forall_app in A. apply Forall_app in B. apply conds_weaken_app in D. unfold fit. tauto.
  Qed.
  Lemma fit_cons k y k' y' : fit (k :: y) (k' :: y') -> fit y y'.
  Proof. intros H. apply (fit_app [k] y [k'] y') in H. apply H. Qed.
  Lemma cond1_plain t r : t_type t <> REGEXP -> t_type t <> FWD_SLASH -> t_type t <> INTEGER -> cond1 E t r.
  Proof. intros A B D. unfold cond1. repeat split; intros; congruence. Qed.
  Lemma cond1_name t r : name_tok t -> cond1 E t r.
  Proof. intros H. apply name_tok_in in H. apply cond1_plain; intros Hx; apply H; rewrite Hx; cbn; tauto. Qed.
  Lemma attr_conds ta q i r : sp_attr ta q i -> conds E r -> conds E (ta ++ r).
  Proof.
    intros Ha Hr. destruct Ha as [n Hn|n c m Hn Hc Hm]; cbn [app conds].
    - split; [|exact Hr]. apply cond1_name; exact Hn.
    - split; [apply cond1_name; exact Hn|]. split; [unfold is_tok in Hc; apply cond1_plain; congruence|]. split; [apply cond1_name; exact Hm|exact Hr].
  Qed.
  Lemma regex_conds tr v fl : sp_regex E C tr v fl -> conds E tr.
  Proof.
    intros Hr. destruct Hr as [k v Hk Hv|k s f v S Hk Hs Hf Hv HS HC]; cbn [conds]; unfold is_tok in *.
    - split; [|exact I]. unfold cond1. repeat split; try congruence. intros _. exists v. exact Hv.
    - split; [|split; [|split; [|exact I]]]; unfold cond1; repeat split; try congruence.
      + intros _. exists v. exact Hv.
      + intros _ f0 r' Heq _. injection Heq as <- _. exists S. split; assumption.
  Qed.
  Lemma basic_conds ta o tr q i op v fl : sp_attr ta q i -> sp_op o op -> sp_regex E C tr v fl -> conds E (ta ++ o :: tr).
  Proof.
    intros Ha Ho Hr. eapply attr_conds; [exact Ha|]. cbn [conds]. split; [|eapply regex_conds; exact Hr].
    apply cond1_plain; destruct Ho as [o Ho|o Ho]; unfold is_tok in Ho; congruence.
  Qed.
  Lemma asks_item c p tq mn mx : asks_for E C c p -> quantified tq mn mx -> Forall typed c ->
    exists n, o_item (c ++ tq) n /\ erase n = QN (PSegment mn mx) None [QN p None []].
  Proof.
    intros Ha Hq Ty. destruct Ha as [tr v fl Hr|l ta o tr r q i op v fl Hl Ha Ho Hr Hr'].
    - eexists. split; [apply ori_literal; eassumption|reflexivity].
    - cbn [app]. rewrite <- (app_assoc (ta ++ o :: tr)). cbn [app]. pose proof (basic_conds _ _ _ _ _ _ _ _ Ha Ho Hr) as Hc. remember (ta ++ o :: tr) as te eqn:Hte.
      assert (Ty1 : Forall typed (te ++ [r])) by (inversion Ty; assumption). apply Forall_app in Ty1. destruct Ty1 as [Ty1 _].
      assert (He : sp_expr E C te (QN (PExpr q i op v fl) (span te) [])) by (subst te; apply se_basic; assumption).
      destruct (lv_tree te (ext_drv _ _ He)) as (t & c & _ & _ & _ & _ & Hlv); [eapply Forall_impl; [|exact Ty1]; apply typed_ok|exact Hc|].
      assert (Hx : c = QN (PExpr q i op v fl) (span te) []) by (subst te; apply (basic_only _ _ _ _ _ _ _ _ c Ha Ho Hr (lv_sp _ _ _ _ Hlv))). rewrite Hx in Hlv.
      eexists. split; [eapply ori_segment; eassumption|reflexivity].
  Qed.
  Lemma seq_operand x ms x' ms' : o_seq x ms -> o_seq x' ms' -> map erase ms = map erase ms' ->
    exists n n', o_operand x n /\ o_operand x' n' /\ erase n = erase n'.
  Proof.
    intros H H' He.
    assert (X : (exists m, ms = [m] /\ q_class m = CQuerySegment) \/ (forall m, ms = [m] -> q_class m <> CQuerySegment)).
    { destruct ms as [|m [|m2 ms]]; [right; discriminate| |right; discriminate]. destruct (q_class m) eqn:Hm; try (right; intros m0 H0 H1; injection H0 as <-; congruence). left. eauto. }
    destruct X as [(m & -> & Hm)|Hno].
    - destruct ms' as [|m' [|? ?]]; try discriminate He. cbn [map] in He. injection He as He.
      assert (Hm' : q_class m' = CQuerySegment) by (rewrite <- erase_class, <- He, erase_class; exact Hm).
      exists m, m'. split; [|split; [|exact He]]; apply oro_segment; try assumption.
      + inversion H as [? ? Hi|? ? ? ? _ Hs]; subst; [exact Hi|inversion Hs].
      + inversion H' as [? ? Hi|? ? ? ? _ Hs]; subst; [exact Hi|inversion Hs].
    - exists (QN PSequence (span x) ms), (QN PSequence (span x') ms'). split; [apply oro_seq; assumption|]. split; [|cbn [erase]; rewrite He; reflexivity].
      apply oro_seq; [exact H'|]. intros m' -> Hm'. destruct ms as [|m [|? ?]]; try discriminate He. cbn [map] in He. injection He as He.
      apply (Hno m eq_refl). rewrite <- erase_class, He, erase_class. exact Hm'.
  Qed.
  Definition both_alts (x x' : list token) : Prop :=
    (exists ms ms', o_seq x ms /\ o_seq x' ms' /\ map erase ms = map erase ms') \/
    (exists ns ns', o_operands x ns /\ o_operands x' ns' /\ (2 <= List.length ns)%nat /\ map erase ns = map erase ns').
  Lemma same_len (ns ns' : list qnode) : map erase ns = map erase ns' -> List.length ns = List.length ns'.
  Proof. intros H. rewrite <- (map_length erase ns), H. apply map_length. Qed.
  Lemma both_operands x x' : both_alts x x' -> exists ns ns', o_operands x ns /\ o_operands x' ns' /\ (1 <= List.length ns)%nat /\ map erase ns = map erase ns'.
  Proof.
    intros [(ms & ms' & H & H' & He)|(ns & ns' & H & H' & Hl & He)]; [|exists ns, ns'; repeat split; auto; lia].
    destruct (seq_operand _ _ _ _ H H' He) as (n & n' & Hn & Hn' & Hx). exists [n], [n']. split; [apply oros_one; exact Hn|]. split; [apply oros_one; exact Hn'|]. cbn. split; [lia|congruence].
  Qed.
  Lemma both_content x x' : both_alts x x' -> exists n n', o_content x n /\ o_content x' n' /\ erase n = erase n'.
  Proof.
    intros [(ms & ms' & H & H' & He)|(ns & ns' & H & H' & Hl & He)].
    - do 2 eexists. split; [apply orc_seq; exact H|]. split; [apply orc_seq; exact H'|]. cbn [erase]. rewrite He. reflexivity.
    - do 2 eexists. split; [apply orc_or; [exact H|exact Hl]|]. split; [apply orc_or; [exact H'|rewrite <- (same_len _ _ He); exact Hl]|]. cbn [erase]. rewrite He. reflexivity.
  Qed.
  Lemma both_main x x' : both_alts x x' -> exists n n', o_main E C lv x n /\ o_main E C lv x' n' /\ erase n = erase n'.
  Proof.
    intros [(ms & ms' & H & H' & He)|(ns & ns' & H & H' & Hl & He)].
    - destruct ms as [|m [|m2 ms]].
      + inversion H.
      + destruct ms' as [|m' [|? ?]]; try discriminate He. cbn [map] in He. injection He as He. exists m, m'. split; [|split; [|exact He]]; apply orm_item.
        * inversion H as [? ? Hi|? ? ? ? _ Hs]; subst; [exact Hi|inversion Hs].
        * inversion H' as [? ? Hi|? ? ? ? _ Hs]; subst; [exact Hi|inversion Hs].
      + pose proof (same_len _ _ He) as HL. do 2 eexists. split; [apply orm_seq; [exact H|cbn; lia]|]. split; [apply orm_seq; [exact H'|rewrite <- HL; cbn; lia]|]. cbn [erase]. rewrite He. reflexivity.
    - pose proof (same_len _ _ He) as HL. do 2 eexists. split; [apply orm_or; [exact H|exact Hl]|]. split; [apply orm_or; [exact H'|rewrite <- HL; exact Hl]|]. cbn [erase]. rewrite He. reflexivity.
  Qed.
  Lemma same_tree :
    (forall x x', same_item E C x x' -> fit x x' -> exists n n', o_item x n /\ o_item x' n' /\ erase n = erase n') /\
    (forall x x', same_items E C x x' -> fit x x' -> exists ns ns', o_seq x ns /\ o_seq x' ns' /\ map erase ns = map erase ns') /\
    (forall x x', same_alts E C x x' -> fit x x' -> both_alts x x').
  Proof.
    apply (same_item_mutind E C (fun x x' => fit x x' -> exists n n', o_item x n /\ o_item x' n' /\ erase n = erase n')
      (fun x x' => fit x x' -> exists ns ns', o_seq x ns /\ o_seq x' ns' /\ map erase ns = map erase ns') (fun x x' => fit x x' -> both_alts x x')).
    - intros c c' p tq tq' mn mx Ha Ha' Hq Hq' Hf. apply fit_app in Hf. destruct Hf as [(A & B & D) _].
      destruct (asks_item _ _ _ _ _ Ha Hq A) as (n & Hn & He). destruct (asks_item _ _ _ _ _ Ha' Hq' B) as (n' & Hn' & He'). exists n, n'. split; [exact Hn|]. split; [exact Hn'|congruence].
    - intros l r l' r' tq tq' mn mx Hl Hr Hl' Hr' Hq Hq' _. do 2 eexists. split; [apply ori_wildcard; eassumption|]. split; [apply ori_wildcard; eassumption|]. reflexivity.
    - intros l te r l' te' r' tq tq' mn mx Hl Hr Hl' Hr' He Hin Hq Hq' Hf. apply fit_cons, fit_app in Hf. destruct Hf as [(A & B & D) _].
      destruct (lv_both te te' He Hin A B D) as (c & c' & Hc & Hc' & Hx).
      do 2 eexists. split; [eapply ori_segment; eassumption|]. split; [eapply ori_segment; eassumption|]. cbn [erase map]. rewrite Hx. reflexivity.
    - intros l tc r l' tc' r' tq tq' mn mx Hl Hr Hl' Hr' _ IH Hq Hq' Hf. apply fit_cons, fit_app in Hf. destruct Hf as [Hf _].
      destruct (both_content _ _ (IH Hf)) as (n & n' & Hn & Hn' & Hx).
      do 2 eexists. split; [eapply ori_group; eassumption|]. split; [eapply ori_group; eassumption|]. cbn [erase map]. rewrite Hx. reflexivity.
    - intros x x' _ IH Hf. destruct (IH Hf) as (n & n' & Hn & Hn' & He). exists [n], [n']. split; [apply orq_one; exact Hn|]. split; [apply orq_one; exact Hn'|]. cbn. congruence.
    - intros x x' y y' _ IH _ IH' Hf. apply fit_app in Hf. destruct Hf as [Hf Hf']. destruct (IH Hf) as (n & n' & Hn & Hn' & He). destruct (IH' Hf') as (ns & ns' & Hns & Hns' & Hes).
      exists (n :: ns), (n' :: ns'). split; [apply orq_more; assumption|]. split; [apply orq_more; assumption|]. cbn. congruence.
    - intros x x' _ IH Hf. left. exact (IH Hf).
    - intros x x' k k' y y' _ IH Hk Hk' _ IH' Hf. apply fit_app in Hf. destruct Hf as [Hf Hf']. apply fit_cons in Hf'. destruct (IH Hf) as (ms & ms' & Hms & Hms' & He).
      destruct (seq_operand _ _ _ _ Hms Hms' He) as (n & n' & Hn & Hn' & Hx). destruct (both_operands _ _ (IH' Hf')) as (ns & ns' & Hns & Hns' & Hl & Hes).
      right. exists (n :: ns), (n' :: ns'). split; [apply oros_more; assumption|]. split; [apply oros_more; assumption|]. cbn. split; [lia|congruence].
  Qed.
  Lemma same_query_tree x x' : same_query E C x x' -> Forall typed (removelast x) -> Forall typed (removelast x') -> conds E x ->
    exists n n', o_query E C lv x n /\ o_query E C lv x' n' /\ erase n = erase n'.
  Proof.
    intros H A B D. destruct H as [x x' e e' H He He'|x x' w k e w' k' e' sc H Hw Hk Hsc Hw' Hk' Hsc' He He'].
    - rewrite removelast_app in A, B by discriminate. cbn [removelast] in A, B. rewrite app_nil_r in A, B. apply conds_weaken_app in D. destruct D as [D _].
      destruct (both_main _ _ (proj2 (proj2 same_tree) _ _ H (conj A (conj B D)))) as (n & n' & Hn & Hn' & Hx). exists n, n'.
      split; [apply ory_plain; assumption|]. split; [apply ory_plain; assumption|exact Hx].
    - rewrite removelast_app in A, B by discriminate. apply Forall_app in A. apply Forall_app in B. destruct A as [A _]. destruct B as [B _]. apply conds_weaken_app in D. destruct D as [D _].
      destruct (both_main _ _ (proj2 (proj2 same_tree) _ _ H (conj A (conj B D)))) as (n & n' & Hn & Hn' & Hx). do 2 eexists.
      split; [eapply ory_within; eassumption|]. split; [eapply ory_within; eassumption|]. cbn [erase map]. rewrite Hx. reflexivity.
  Qed.
End Syn.
