(** Everything the specification spells is in the grammar, with acceptable texts. *)
From Coq Require Import String.
From Verif Require Import Base Regex LexRules Lexer Grammar Antlr Ast Builder LexSpec LitSpec LexThms
  GramSpec GramFacts ValueSpec ValueFacts SpellSpec BuilderFacts BuilderRules.
Local Open Scope Z_scope.

Section Complete.
  Variables (E : penv) (C : pcfg).
  Definition is_tree (r : rule) (ts : list token) : Prop := exists ch, derives (body r) ch /\ flat_map leaves ch = ts.
  Definition drv (e : ebnf) (ts : list token) : Prop := exists x, derives e x /\ flat_map leaves x = ts.

  Lemma drv_tree r ts : is_tree r ts -> drv (NT r) ts.
  Proof. intros (ch & Hd & Hl). exists [Node r ch]. split; [constructor; exact Hd|]. cbn. rewrite app_nil_r. exact Hl. Qed.
  Lemma tree_drv r ts : drv (body r) ts -> is_tree r ts.
  Proof. exact (fun H => H). Qed.
  Lemma drv_nt r ts : drv (body r) ts -> drv (NT r) ts.
  Proof. apply drv_tree. Qed.
  Lemma drv_tk l t : In (t_type t) l -> drv (Tk l) [t].
  Proof. intros H. exists [Leaf t]. split; [constructor; exact H|reflexivity]. Qed.
  Lemma drv_sq a b x y : drv a x -> drv b y -> drv (Sq a b) (x ++ y).
  Proof. intros (f & Hf & <-) (g & Hg & <-). exists (f ++ g). split; [constructor; assumption|apply flat_map_app]. Qed.
  Lemma drv_al1 a b x : drv a x -> drv (Al a b) x.
  Proof. intros (f & Hf & <-). exists f. split; [apply d_al1; exact Hf|reflexivity]. Qed.
  Lemma drv_al2 a b x : drv b x -> drv (Al a b) x.
  Proof. intros (f & Hf & <-). exists f. split; [apply d_al2; exact Hf|reflexivity]. Qed.
  Lemma drv_op0 e : drv (Op e) [].
  Proof. exists []. split; [constructor|reflexivity]. Qed.
  Lemma drv_op1 e x : drv e x -> drv (Op e) x.
  Proof. intros (f & Hf & <-). exists f. split; [apply d_op1; exact Hf|reflexivity]. Qed.
  Lemma drv_pl e x y : drv e x -> drv (St e) y -> drv (Pl e) (x ++ y).
  Proof. intros (f & Hf & <-) (g & Hg & <-). exists (f ++ g). split; [constructor; assumption|apply flat_map_app]. Qed.
  Lemma drv_st0 e : drv (St e) [].
  Proof. exists []. split; [constructor|reflexivity]. Qed.
  Lemma drv_st1 e x y : drv e x -> drv (St e) y -> drv (St e) (x ++ y).
  Proof. intros (f & Hf & <-) (g & Hg & <-). exists (f ++ g). split; [apply d_st1; assumption|apply flat_map_app]. Qed.
  Lemma drv_sq' a b t y : drv a [t] -> drv b y -> drv (Sq a b) (t :: y).
  Proof. apply (drv_sq a b [t]). Qed.
  Lemma drv_st_one e x : drv e x -> drv (St e) x.
  Proof. intros H. rewrite <- (app_nil_r x). apply drv_st1; [exact H|apply drv_st0]. Qed.
  Lemma drv_pl_one e x : drv e x -> drv (Pl e) x.
  Proof. intros H. rewrite <- (app_nil_r x). apply drv_pl; [exact H|apply drv_st0]. Qed.

  Ltac tk := apply drv_tk; match goal with H : is_tok _ ?t |- In (t_type ?t) _ => rewrite H | H : int_tok _ ?t |- In (t_type ?t) _ => rewrite (proj1 H) end; cbn; tauto.

  Lemma drv_regex ts v fl : sp_regex E C ts v fl -> drv (NT regexp) ts.
  Proof.
    intros H. apply drv_nt. cbn [body]. destruct H.
    - apply drv_sq'; [apply drv_nt; tk|apply drv_op0].
    - apply drv_sq'; [apply drv_nt; tk|]. apply drv_op1. apply drv_sq'; [tk|]. apply drv_nt. tk.
  Qed.
  Lemma drv_attr ts q i : sp_attr ts q i -> drv (NT attribute) ts.
  Proof.
    intros H. apply drv_nt. cbn [body]. destruct H as [i Hi|q c i Hq Hc Hi].
    - change [i] with ([] ++ [i]). apply drv_sq; [apply drv_op0|]. apply drv_nt, drv_tk. exact Hi.
    - change [q; c; i] with ([q; c] ++ [i]). apply drv_sq; [|apply drv_nt, drv_tk; exact Hi].
      apply drv_op1. apply drv_sq'; [apply drv_nt, drv_tk; exact Hq|tk].
  Qed.
  Lemma drv_quant tq mn mx : quantified tq mn mx -> drv (Op (NT quantifier)) tq.
  Proof.
    intros H. destruct H; [apply drv_op0|..]; apply drv_op1, drv_nt; cbn [body].
    - apply drv_al2, drv_al1. tk.
    - apply drv_al1. tk.
    - apply drv_al2, drv_al2, drv_al1. tk.
    - do 3 apply drv_al2. apply drv_sq'; [tk|]. apply drv_sq'; [|tk]. apply drv_al1. tk.
    - do 3 apply drv_al2. apply drv_sq'; [tk|]. change [i; c; r] with ([i; c] ++ [r]). apply drv_sq; [|tk]. apply drv_al2, drv_al2.
      apply drv_sq'; [tk|]. apply drv_sq'; [tk|]. apply drv_op0.
    - do 3 apply drv_al2. apply drv_sq'; [tk|]. change [c; i; r] with ([c; i] ++ [r]). apply drv_sq; [|tk]. apply drv_al2, drv_al1.
      change [c; i] with ([] ++ [c; i]). apply drv_sq; [apply drv_op0|]. apply drv_sq'; tk.
    - do 3 apply drv_al2. apply drv_sq'; [tk|]. change [i; c; j; r] with ([i; c; j] ++ [r]). apply drv_sq; [|tk]. apply drv_al2, drv_al1.
      change [i; c; j] with ([i] ++ [c; j]). apply drv_sq; [apply drv_op1; tk|]. apply drv_sq'; tk.
  Qed.

  Definition rule_of (p : payload) : option rule :=
    match p with
    | PExpr _ _ _ _ _ => Some expression_basic | PExprGroup => Some expression_group | PNot => Some expression_not
    | PAnd => Some expression_and | POr => Some expression_or | _ => None
    end.
  Definition kid (n : qnode) (ts : list token) : Prop := exists r, rule_of (q_payload n) = Some r /\ drv (NT r) ts.
  Notation eb := (NT expression_basic). Notation eg := (NT expression_group). Notation eo := (NT expression_or).
  Notation ea := (NT expression_and). Notation en := (NT expression_not).
  Ltac pick := repeat first [assumption|apply drv_al1; assumption|apply drv_al2].
  Ltac kid H := destruct H as (r0 & Hr0 & Hd0); destruct (q_payload _) as [| | | | | | | | | | |] eqn:?; try discriminate Hr0; injection Hr0 as <-; try congruence.
  Lemma kid_all n ts : kid n ts -> drv (Al eb (Al eg (Al eo (Al ea en)))) ts.
  Proof. intros H. kid H; pick. Qed.
  Lemma kid_not n ts : kid n ts -> drv (Al eb (Al eg (Al en (Al eo ea)))) ts.
  Proof. intros H. kid H; pick. Qed.
  Lemma kid_or n ts : kid n ts -> q_payload n <> POr -> drv (Al eb (Al eg (Al ea en))) ts.
  Proof. intros H Hp. kid H; pick. Qed.
  Lemma kid_and n ts : kid n ts -> q_payload n <> PAnd -> drv (Al eb (Al eg (Al eo en))) ts.
  Proof. intros H Hp. kid H; pick. Qed.
  Lemma kid_and1 n ts : kid n ts -> q_payload n <> PAnd -> q_payload n <> POr -> drv (Al eb (Al eg en)) ts.
  Proof. intros H Hp Hp'. kid H; pick. Qed.

  Lemma drv_expr :
    (forall ts n, sp_expr E C ts n -> kid n ts) /\
    (forall sep ts ns, sp_exprs E C sep ts ns ->
       forall e1 e2,
       (forall n ts, hd_error ns = Some n -> kid n ts -> drv e1 ts) ->
       (forall n ts, In n (tl ns) -> kid n ts -> drv e2 ts) ->
       exists x y, ts = x ++ y /\ drv e1 x /\ drv (St (Sq (Tk [sep]) e2)) y /\
         ((2 <= List.length ns)%nat -> drv (Pl (Sq (Tk [sep]) e2)) y)).
  Proof.
    apply sp_expr_mutind.
    - intros ta o tr q i op v fl Ha Ho Hr. exists expression_basic. split; [reflexivity|]. apply drv_nt. cbn [body].
      apply drv_sq; [eapply drv_attr; exact Ha|]. apply drv_sq'; [|eapply drv_regex; exact Hr].
      apply drv_tk. destruct Ho as [t Ht|t Ht]; rewrite Ht; cbn; tauto.
    - intros l ts r n Hl _ IH Hr. exists expression_group. split; [reflexivity|]. apply drv_nt. cbn [body].
      apply drv_sq'; [tk|]. apply drv_sq; [apply kid_all with n; exact IH|tk].
    - intros k ts n Hk _ IH. exists expression_not. split; [reflexivity|]. apply drv_nt. cbn [body].
      apply drv_sq'; [tk|]. apply kid_not with n. exact IH.
    - intros ts ns _ IH Hlen Hp Ho. exists expression_and. split; [reflexivity|]. apply drv_nt. cbn [body].
      destruct (IH (Al eb (Al eg en)) (Al eb (Al eg (Al eo en)))) as (x & y & -> & Hx & _ & Hy).
      + intros n ts' Hn Hk. apply (kid_and1 n ts' Hk); [apply Hp; destruct ns; [discriminate|injection Hn as ->; left; reflexivity]|apply Ho; exact Hn].
      + intros n ts' Hn Hk. apply (kid_and n ts' Hk). apply Hp. destruct ns; [destruct Hn|right; exact Hn].
      + apply drv_sq; [exact Hx|apply Hy; exact Hlen].
    - intros ts ns _ IH Hlen Hp. exists expression_or. split; [reflexivity|]. apply drv_nt. cbn [body].
      destruct (IH (Al eb (Al eg (Al ea en))) (Al eb (Al eg (Al ea en)))) as (x & y & -> & Hx & _ & Hy).
      + intros n ts' Hn Hk. apply (kid_or n ts' Hk). apply Hp; destruct ns; [discriminate|injection Hn as ->; left; reflexivity].
      + intros n ts' Hn Hk. apply (kid_or n ts' Hk). apply Hp. destruct ns; [destruct Hn|right; exact Hn].
      + apply drv_sq; [exact Hx|apply Hy; exact Hlen].
    - intros sep ts n _ IH e1 e2 H1 H2. exists ts, []. rewrite app_nil_r. split; [reflexivity|]. split; [apply (H1 n); [reflexivity|exact IH]|].
      split; [apply drv_st0|cbn; lia].
    - intros sep ts n k ts' ns _ IH Hk _ IH' e1 e2 H1 H2. exists ts, (k :: ts'). split; [reflexivity|]. split; [apply (H1 n); [reflexivity|exact IH]|].
      destruct (IH' e2 e2) as (x & y & -> & Hx & Hy & _).
      + intros m tm Hm. apply H2. cbn. destruct ns; [discriminate|injection Hm as ->; left; reflexivity].
      + intros m tm Hm. apply H2. cbn. destruct ns; [destruct Hm|right; exact Hm].
      + change (k :: x ++ y) with ((k :: x) ++ y). split; [apply drv_st1|intros _; apply drv_pl]; try assumption; (apply drv_sq'; [tk|exact Hx]).
  Qed.

  Notation qi := (Al (NT query_simple) (NT query_group)).
  Notation qo := (Al (NT query_simple) (Al (NT query_sequence) (NT query_group))).
  Lemma drv_item :
    (forall ts n, sp_item E C ts n -> drv qi ts) /\
    (forall ts ns, sp_seq E C ts ns -> drv (Pl qi) ts /\ drv (St qi) ts) /\
    (forall ts ns, sp_alts E C ts ns -> exists x y, ts = x ++ y /\ drv qo x /\ drv (St (Sq (Tk [OR]) qo)) y /\
       ((2 <= List.length ns)%nat -> drv (Pl (Sq (Tk [OR]) qo)) y)) /\
    (forall ts n, sp_operand E C ts n -> drv qo ts) /\
    (forall ts n, sp_content E C ts n -> drv (Al (NT query_disjunction) (NT query_sequence)) ts).
  Proof.
    apply sp_item_mutind.
    - intros tr tq v fl mn mx Hr Hq. apply drv_al1, drv_nt. cbn [body]. apply drv_sq; [|eapply drv_quant; exact Hq].
      apply drv_al1, drv_nt. cbn [body]. eapply drv_regex; exact Hr.
    - intros l r tq mn mx Hl Hr Hq. apply drv_al1, drv_nt. cbn [body]. change (l :: r :: tq) with ([l; r] ++ tq). apply drv_sq; [|eapply drv_quant; exact Hq].
      apply drv_al2, drv_nt. cbn [body]. apply drv_sq'; [tk|]. change [r] with ([] ++ [r]). apply drv_sq; [apply drv_op0|tk].
    - intros l te r tq n mn mx Hl He Hr Hq. apply drv_al1, drv_nt. cbn [body].
      replace (l :: te ++ r :: tq) with ((l :: te ++ [r]) ++ tq) by (cbn; rewrite <- app_assoc; reflexivity).
      apply drv_sq; [|eapply drv_quant; exact Hq].
      apply drv_al2, drv_nt. cbn [body]. apply drv_sq'; [tk|]. apply drv_sq; [|tk]. apply drv_op1, drv_nt. cbn [body].
      apply kid_all with n. apply drv_expr. exact He.
    - intros l tc r tq n mn mx Hl _ IH Hr Hq. apply drv_al2, drv_nt. cbn [body]. apply drv_sq'; [tk|].
      apply drv_sq; [exact IH|]. apply drv_sq'; [tk|]. eapply drv_quant; exact Hq.
    - intros ts n _ IH. split; [apply drv_pl_one|apply drv_st_one]; exact IH.
    - intros ts n ts' ns _ IH _ [IH1 IH2]. split; [apply drv_pl|apply drv_st1]; assumption.
    - intros ts n _ IH. exists ts, []. rewrite app_nil_r. split; [reflexivity|]. split; [exact IH|]. split; [apply drv_st0|cbn; lia].
    - intros ts n k ts' ns _ IH Hk _ (x & y & -> & Hx & Hy & _). exists ts, (k :: x ++ y). split; [reflexivity|]. split; [exact IH|].
      change (k :: x ++ y) with ((k :: x) ++ y). split; [apply drv_st1|intros _; apply drv_pl]; try assumption; (apply drv_sq'; [tk|exact Hx]).
    - intros ts n _ (x & Hd & Hl). exists x. split; [|exact Hl]. inversion Hd; subst; [apply d_al1; assumption|apply d_al2, d_al2; assumption].
    - intros ts ns _ [IH _]. apply drv_al2, drv_al1, drv_nt. exact IH.
    - intros ts ns _ [IH _]. apply drv_al2, drv_nt. exact IH.
    - intros ts ns _ (x & y & -> & Hx & _ & Hy) Hlen. apply drv_al1, drv_nt. cbn [body]. apply drv_sq; [exact Hx|apply Hy; exact Hlen].
  Qed.
  Lemma drv_main ts n : sp_main E C ts n -> drv (NT main_query) ts.
  Proof.
    intros H. apply drv_nt. cbn [body]. destruct H as [ts n H|ts n H].
    - apply drv_item in H. destruct H as (x & Hd & Hl). exists x. split; [|exact Hl]. inversion Hd; subst; [apply d_al1; assumption|apply d_al2, d_al1; assumption].
    - apply (proj2 (proj2 (proj2 (proj2 drv_item)))) in H. destruct H as (x & Hd & Hl). exists x. split; [|exact Hl].
      inversion Hd; subst; [apply d_al2, d_al2, d_al2; assumption|apply d_al2, d_al2, d_al1; assumption].
  Qed.
  Lemma spelled_conforms ts n : sp_query E C ts n -> conforms ts.
  Proof.
    intros H. assert (Hd : drv (NT query) ts).
    { apply drv_nt. cbn [body]. destruct H as [ts n e H He|ts n w k sc e H Hw Hk Hs He].
      - apply drv_sq; [eapply drv_main; exact H|]. change [e] with ([] ++ [e]). apply drv_sq; [apply drv_op0|tk].
      - apply drv_sq; [eapply drv_main; exact H|]. change [w; k; e] with ([w; k] ++ [e]). apply drv_sq; [|tk].
        apply drv_op1. apply drv_sq'; [tk|]. do 2 apply drv_nt. tk. }
    destruct Hd as (x & Hd & Hl). inversion Hd; subst. eexists. split; [exact Hd|]. cbn. rewrite app_nil_r. reflexivity.
  Qed.

  (** Texts. *)
  Definition E0 : penv := mkPEnv (env_normalize E) 0 (env_chr_overflows E).
  Notation cok ts := (good_end ts /\ conds E0 ts).
  Lemma int_ok0 w : int_ok E0 w.
  Proof. left. reflexivity. Qed.
  Lemma cok_pre k ts : plain (t_type k) -> cok ts -> cok (k :: ts).
  Proof. intros Hk [Hg Hc]. split; [apply good_end_cons; exact Hg|apply conds_cons; assumption]. Qed.
  Lemma cok_one k : plain (t_type k) -> cok [k].
  Proof. intros Hk. split; [apply good_end_one; unfold plain in Hk; cbn in *; tauto|apply conds_one; exact Hk]. Qed.
  Lemma cok_app x y : cok x -> cok y -> cok (x ++ y).
  Proof. intros [Hg Hc] [Hg' Hc']. split; [apply good_end_app; exact Hg'|apply conds_app; auto]. Qed.
  Lemma cok_app_nil x y : cok x -> y = [] \/ cok y -> cok (x ++ y).
  Proof. intros Hx [->|Hy]; [rewrite app_nil_r; exact Hx|apply cok_app; assumption]. Qed.
  Ltac pl := unfold plain; match goal with H : is_tok _ ?t |- ~ In (t_type ?t) _ => rewrite H end; cbn; intuition discriminate.
  Lemma cok_name k : name_tok k -> cok [k].
  Proof. intros H. apply cok_one. apply name_tok_in. exact H. Qed.
  Lemma cok_attr ts q i : sp_attr ts q i -> cok ts.
  Proof.
    destruct 1 as [i Hi|q c i Hq Hc Hi]; [apply cok_name; exact Hi|]. apply cok_pre; [apply name_tok_in; exact Hq|].
    apply cok_pre; [pl|]. apply cok_name. exact Hi.
  Qed.
  Lemma cok_regex ts v fl : sp_regex E C ts v fl -> cok ts.
  Proof.
    destruct 1 as [k v Hk Hv|k s f v S Hk Hs Hf Hv HS Hc]; unfold is_tok in *.
    - split; [apply good_end_one; rewrite Hk; cbn; intuition discriminate|]. cbn [conds]. split; [|exact I]. unfold cond1. rewrite Hk.
      split; [intros _; exists v; exact Hv|]. repeat split; discriminate.
    - split; [apply good_end_cons, good_end_cons, good_end_one; rewrite Hf; cbn; intuition discriminate|]. cbn [conds]. unfold cond1. rewrite Hk, Hs, Hf.
      split; [split; [intros _; exists v; exact Hv|]; repeat split; discriminate|].
      split; [|split; [repeat split; discriminate|exact I]]. split; [discriminate|]. split; [|repeat split; discriminate].
      intros _ f0 r' Heq _. injection Heq as <- _. exists S. auto.
  Qed.
  Lemma cok_quant tq mn mx : quantified tq mn mx -> tq = [] \/ cok tq.
  Proof.
    intros H. destruct H; [left; reflexivity|right..]; try (apply cok_one; pl); unfold is_tok, int_tok in *;
      repeat match goal with H : _ /\ _ |- _ => destruct H end;
      (split; [repeat (first [apply good_end_one; match goal with Hk : t_type ?k = _ |- ~ In (t_type ?k) _ => rewrite Hk end; cbn; intuition discriminate|apply good_end_cons])|]);
      cbn [conds]; unfold cond1;
      repeat split; intros; try apply int_ok0; try congruence.
    all: match goal with H : _ :: _ = _ :: _ |- _ => injection H as; subst end; try congruence.
  Qed.
  Lemma cok_expr :
    (forall ts n, sp_expr E C ts n -> cok ts) /\ (forall sep ts ns, sp_exprs E C sep ts ns -> plain sep -> cok ts).
  Proof.
    apply sp_expr_mutind.
    - intros ta o tr q i op v fl Ha Ho Hr. apply cok_app; [eapply cok_attr; exact Ha|]. apply cok_pre; [|eapply cok_regex; exact Hr].
      unfold plain. destruct Ho as [t Ht|t Ht]; rewrite Ht; cbn; intuition discriminate.
    - intros l ts r n Hl _ IH Hr. apply cok_pre; [pl|]. apply cok_app; [exact IH|apply cok_one; pl].
    - intros k ts n Hk _ IH. apply cok_pre; [pl|exact IH].
    - intros ts ns _ IH _ _ _. apply IH. cbv; intuition discriminate.
    - intros ts ns _ IH _ _. apply IH. cbv; intuition discriminate.
    - intros sep ts n _ IH _. exact IH.
    - intros sep ts n k ts' ns _ IH Hk _ IH' Hs. apply cok_app; [exact IH|]. apply cok_pre; [rewrite Hk; exact Hs|auto].
  Qed.
  Lemma cok_item :
    (forall ts n, sp_item E C ts n -> cok ts) /\ (forall ts ns, sp_seq E C ts ns -> cok ts) /\
    (forall ts ns, sp_alts E C ts ns -> cok ts) /\ (forall ts n, sp_operand E C ts n -> cok ts) /\
    (forall ts n, sp_content E C ts n -> cok ts).
  Proof.
    apply sp_item_mutind; auto.
    - intros tr tq v fl mn mx Hr Hq. apply cok_app_nil; [eapply cok_regex; exact Hr|eapply cok_quant; exact Hq].
    - intros l r tq mn mx Hl Hr Hq. change (l :: r :: tq) with ([l; r] ++ tq). apply cok_app_nil; [|eapply cok_quant; exact Hq].
      apply cok_pre; [pl|apply cok_one; pl].
    - intros l te r tq n mn mx Hl He Hr Hq. apply cok_pre; [pl|]. apply cok_app; [apply cok_expr in He; exact He|].
      change (r :: tq) with ([r] ++ tq). apply cok_app_nil; [apply cok_one; pl|eapply cok_quant; exact Hq].
    - intros l te r tq n mn mx Hl _ IH Hr Hq. apply cok_pre; [pl|]. apply cok_app; [exact IH|].
      change (r :: tq) with ([r] ++ tq). apply cok_app_nil; [apply cok_one; pl|eapply cok_quant; exact Hq].
    - intros ts n ts' ns _ IH _ IH'. apply cok_app; assumption.
    - intros ts n k ts' ns _ IH Hk _ IH'. apply cok_app; [exact IH|]. apply cok_pre; [pl|exact IH'].
  Qed.
  Lemma spelled_texts ts n : sp_query E C ts n -> (forall t, In t ts -> t_type t = INTEGER -> int_ok E (t_text t)) -> texts_ok E ts.
  Proof.
    intros H Hi. assert (Hc : cok ts).
    { destruct H as [ts n e H He|ts n w k sc e H Hw Hk Hs He].
      - apply cok_app; [|apply cok_one; pl]. destruct H as [? ? H|? ? H]; [apply (proj1 cok_item) in H; exact H|apply (proj2 (proj2 (proj2 (proj2 cok_item)))) in H; exact H].
      - apply cok_app; [|apply cok_pre; [pl|apply cok_pre; [pl|apply cok_one; pl]]].
        destruct H as [? ? H|? ? H]; [apply (proj1 cok_item) in H; exact H|apply (proj2 (proj2 (proj2 (proj2 cok_item)))) in H; exact H]. }
    destruct Hc as [_ Hc]. apply texts_ok_conds in Hc. destruct Hc as (A & B & _ & D). split; [exact A|]. split; [exact B|]. split; assumption.
  Qed.
End Complete.
