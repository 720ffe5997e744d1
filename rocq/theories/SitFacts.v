(** Every node of a parsed tree sits at a definite place of the query. *)
From Coq Require Import String.
From Verif Require Import Base Regex LexRules Lexer Grammar Antlr Ast Builder Parser LexSpec LitSpec LexThms LexWs LexSub
  GramSpec GramFacts ValueSpec ValueFacts SpellSpec BuilderFacts BuilderRules ParseSpec ParseFacts EvFacts TreeSpec TreeFacts.
Local Open Scope Z_scope.

Section Sit.
  Variables (E : penv) (C : pcfg).
  Notation sits := (sits E C).
  Notation nq := (next_not (FWD_SLASH :: quantifier_start)).

  Lemma nq_tok ty k r : is_tok ty k -> ~ In ty (FWD_SLASH :: quantifier_start) -> nq (k :: r).
  Proof. intros Hk Hn s r' H. injection H as <- <-. rewrite Hk. exact Hn. Qed.
  Lemma regex_first ts v fl : sp_regex E C ts v fl -> exists k r, ts = k :: r /\ is_tok REGEXP k.
  Proof. destruct 1; eauto. Qed.
  Lemma item_first ts n : sp_item E C ts n -> exists k r, ts = k :: r /\ In (t_type k) [REGEXP; L_SQUARE_BRACKET; L_PAREN].
  Proof.
    destruct 1 as [tr tq v fl mn mx H Hq|l r tq mn mx Hl|l te r tq n mn mx Hl|l tc r tq n mn mx Hl]; unfold is_tok in *.
    - destruct (regex_first _ _ _ H) as (k & r & -> & Hk). exists k, (r ++ tq). split; [reflexivity|]. rewrite Hk. cbn; tauto.
    - eexists _, _. split; [reflexivity|]. rewrite Hl. cbn; tauto.
    - eexists _, _. split; [reflexivity|]. rewrite Hl. cbn; tauto.
    - eexists _, _. split; [reflexivity|]. rewrite Hl. cbn; tauto.
  Qed.
  Lemma seq_first ts ns : sp_seq E C ts ns -> exists k r, ts = k :: r /\ In (t_type k) [REGEXP; L_SQUARE_BRACKET; L_PAREN].
  Proof.
    destruct 1 as [ts n H|ts n ts' ns H _]; destruct (item_first _ _ H) as (k & r & -> & Hk); eexists _, _; (split; [reflexivity|exact Hk]).
  Qed.
  Lemma nq_first ts post k r : ts = k :: r -> In (t_type k) [REGEXP; L_SQUARE_BRACKET; L_PAREN] -> nq (ts ++ post).
  Proof. intros -> Hk s r' H. injection H as <- _. revert Hk. cbn. intros Hk H. destruct Hk as [Hk|[Hk|[Hk|[]]]]; rewrite <- Hk in H; intuition discriminate. Qed.

  (** The last token of an item. *)
  Lemma regex_end ts v fl : sp_regex E C ts v fl -> exists a p, ts = a ++ [p] /\ In (t_type p) item_end.
  Proof.
    destruct 1 as [k v Hk|k s f v S Hk Hs Hf]; [exists [], k|exists [k; s], f]; (split; [reflexivity|]); unfold is_tok in *;
      [rewrite Hk|rewrite Hf]; cbn; tauto.
  Qed.
  Lemma quantified_end tq mn mx : quantified tq mn mx -> tq = [] \/ exists a p, tq = a ++ [p] /\ In (t_type p) item_end.
  Proof.
    destruct 1; unfold is_tok in *; [left; reflexivity|right..].
    1-3: exists [], t; (split; [reflexivity|]); rewrite H; cbn; tauto.
    - exists [l; i], r. split; [reflexivity|]. rewrite H1. cbn; tauto.
    - exists [l; i; c], r. split; [reflexivity|]. rewrite H2. cbn; tauto.
    - exists [l; c; i], r. split; [reflexivity|]. rewrite H2. cbn; tauto.
    - exists [l; i; c; j], r. split; [reflexivity|]. rewrite H3. cbn; tauto.
  Qed.
  Lemma end_app xs ys : (ys = [] \/ exists a p, ys = a ++ [p] /\ In (t_type p) item_end) ->
    (exists a p, xs = a ++ [p] /\ In (t_type p) item_end) -> exists a p, xs ++ ys = a ++ [p] /\ In (t_type p) item_end.
  Proof.
    intros [->|(a & p & -> & Hp)] (a' & p' & -> & Hp'); [rewrite app_nil_r; eauto|]. exists ((a' ++ [p']) ++ a), p.
    split; [rewrite app_assoc; reflexivity|exact Hp].
  Qed.
  Lemma item_last ts n : sp_item E C ts n -> exists a p, ts = a ++ [p] /\ In (t_type p) item_end.
  Proof.
    destruct 1 as [tr tq v fl mn mx H Hq|l r tq mn mx Hl Hr Hq|l te r tq n mn mx Hl H Hr Hq|l tc r tq n mn mx Hl H Hr Hq]; unfold is_tok in *; apply quantified_end in Hq.
    - apply end_app; [exact Hq|]. eapply regex_end; exact H.
    - change (l :: r :: tq) with ([l; r] ++ tq). apply end_app; [exact Hq|]. exists [l], r. split; [reflexivity|]. rewrite Hr; cbn; tauto.
    - replace (l :: te ++ r :: tq) with ((l :: te ++ [r]) ++ tq) by (cbn; rewrite <- app_assoc; reflexivity).
      apply end_app; [exact Hq|]. exists (l :: te), r. split; [reflexivity|]. rewrite Hr; cbn; tauto.
    - replace (l :: tc ++ r :: tq) with ((l :: tc ++ [r]) ++ tq) by (cbn; rewrite <- app_assoc; reflexivity).
      apply end_app; [exact Hq|]. exists (l :: tc), r. split; [reflexivity|]. rewrite Hr; cbn; tauto.
  Qed.
  Lemma start_nil : item_may_start [].
  Proof. intros pre' p H. destruct pre'; discriminate. Qed.
  Lemma start_tok pre k ty : is_tok ty k -> In ty (L_PAREN :: OR :: item_end) -> item_may_start (pre ++ [k]).
  Proof. intros Hk Hin pre' p H. apply app_inj_tail in H. destruct H as [_ <-]. rewrite Hk. exact Hin. Qed.
  Lemma start_item pre ts n : sp_item E C ts n -> item_may_start (pre ++ ts).
  Proof.
    intros H. destruct (item_last _ _ H) as (a & p & -> & Hp). rewrite app_assoc. intros pre' p' Hx. apply app_inj_tail in Hx.
    destruct Hx as [_ <-]. right. right. exact Hp.
  Qed.

  (** [c] sits at an inner place of [ts]. *)
  Definition inside (pre ts post : list token) (c : qnode) : Prop :=
    exists a tc b, ts = a ++ tc ++ b /\ sits (pre ++ a) tc (b ++ post) c.
  Lemma inside_app pre a ts b post c : inside (pre ++ a) ts (b ++ post) c -> inside pre (a ++ ts ++ b) post c.
  Proof.
    intros (a' & tc & b' & -> & H). exists (a ++ a'), tc, (b' ++ b). split; [rewrite <- !app_assoc; reflexivity|].
    rewrite (app_assoc pre a a'), <- (app_assoc b' b post). exact H.
  Qed.
  Lemma inside_self pre ts post c : sits pre ts post c -> inside pre ts post c.
  Proof. intros H. exists [], ts, []. rewrite !app_nil_r. auto. Qed.

  Lemma exprs_inside sep ts ns : sp_exprs E C sep ts ns -> (sep = AND \/ sep = OR) -> forall pre p s post c, In c ns ->
    In (t_type p) [L_SQUARE_BRACKET; L_PAREN; NOT; AND; OR] -> In (t_type s) [R_SQUARE_BRACKET; R_PAREN; AND; OR] ->
    inside (pre ++ [p]) ts (s :: post) c.
  Proof.
    induction 1 as [sep ts n Hn|sep ts n k ts' ns Hn Hk Hns IH]; intros Hsep pre p s post c Hin Hp Hs.
    - destruct Hin as [<-|[]]. apply inside_self. apply sit_expr; assumption.
    - destruct Hin as [<-|Hin].
      + exists [], ts, (k :: ts'). split; [reflexivity|]. rewrite app_nil_r. apply sit_expr; try assumption.
        rewrite Hk. destruct Hsep; subst; cbn; tauto.
      + replace (ts ++ k :: ts') with ((ts ++ [k]) ++ ts' ++ []) by (rewrite app_nil_r, <- app_assoc; reflexivity).
        apply inside_app. cbn [app]. rewrite app_assoc. apply IH; try assumption. rewrite Hk. destruct Hsep; subst; cbn; tauto.
  Qed.
  Lemma seq_inside ts ns : sp_seq E C ts ns -> forall pre post c, In c ns -> nq post -> item_may_start pre -> inside pre ts post c.
  Proof.
    induction 1 as [ts n Hn|ts n ts' ns Hn Hns IH]; intros pre post c Hin Hp Hst.
    - destruct Hin as [<-|[]]. apply inside_self. apply sit_item; assumption.
    - destruct Hin as [<-|Hin].
      + exists [], ts, ts'. split; [reflexivity|]. rewrite app_nil_r. apply sit_item; [assumption| |exact Hst].
        destruct (seq_first _ _ Hns) as (k & r & Hk & Hty). eapply nq_first; eassumption.
      + replace (ts ++ ts') with (ts ++ ts' ++ []) by (rewrite app_nil_r; reflexivity). apply inside_app. apply IH; try assumption. eapply start_item; exact Hn.
  Qed.
  Lemma operand_sits ts n pre post : sp_operand E C ts n -> nq post -> item_may_start pre -> sits pre ts post n.
  Proof. destruct 1 as [ts n H|ts ns H]; intros Hp Hst; [apply sit_item; assumption|apply sit_content; [constructor; assumption|assumption|assumption]]. Qed.
  Lemma alts_inside ts ns : sp_alts E C ts ns -> forall pre post c, In c ns -> nq post -> item_may_start pre -> inside pre ts post c.
  Proof.
    induction 1 as [ts n Hn|ts n k ts' ns Hn Hk Hns IH]; intros pre post c Hin Hp Hst.
    - destruct Hin as [<-|[]]. apply inside_self. apply operand_sits; assumption.
    - destruct Hin as [<-|Hin].
      + exists [], ts, (k :: ts'). split; [reflexivity|]. rewrite app_nil_r. apply operand_sits; [assumption| |exact Hst].
        eapply nq_tok; [exact Hk|]. cbn; intuition discriminate.
      + replace (ts ++ k :: ts') with ((ts ++ [k]) ++ ts' ++ []) by (rewrite app_nil_r, <- app_assoc; reflexivity). apply inside_app. apply IH; try assumption. rewrite app_assoc. eapply start_tok; [exact Hk|cbn; tauto].
  Qed.

  Lemma main_sits ts n pre post : sp_main E C ts n -> nq post -> item_may_start pre -> sits pre ts post n.
  Proof. destruct 1; intros Hp Hst; [apply sit_item|apply sit_content]; assumption. Qed.

  Lemma sits_children pre ts post n c : sits pre ts post n -> In c (q_children n) -> inside pre ts post c.
  Proof.
    intros H Hc. destruct H as [pre p ts s post n H Hp Hs|pre ts post v fl H Hn Hst|pre l r post Hl Hr Hst|pre ts post n H Hn Hst|pre ts post n H Hn Hst|pre w k sc Hw Hk Hsc|ts n w k sc H Hw Hk Hsc];
      cbn [q_children] in Hc; try destruct Hc.
    - destruct H as [ta o tr q i op v fl|l ts r n Hl H Hr|k ts n Hk H|ts ns H Hlen Hno Hhd|ts ns H Hlen Hno]; cbn [q_children] in Hc; unfold is_tok in *.
      + destruct Hc.
      + destruct Hc as [<-|[]]. exists [l], ts, [r]. split; [reflexivity|]. apply sit_expr; [exact H|rewrite Hl; cbn; tauto|rewrite Hr; cbn; tauto].
      + destruct Hc as [<-|[]]. exists [k], ts, []. split; [rewrite app_nil_r; reflexivity|]. apply sit_expr; [exact H|rewrite Hk; cbn; tauto|exact Hs].
      + eapply exprs_inside; eauto.
      + eapply exprs_inside; eauto.
    - destruct H as [tr tq v fl mn mx H Hq|l r tq mn mx Hl Hr Hq|l te r tq n mn mx Hl H Hr Hq|l tc r tq n mn mx Hl H Hr Hq]; cbn [q_children] in Hc; unfold is_tok in *; destruct Hc as [<-|[]].
      + exists [], tr, tq. split; [reflexivity|]. rewrite app_nil_r. apply sit_bare; [exact H| |exact Hst]. intros s r Heq Hin.
        destruct Hq; cbn [app] in Heq; try (injection Heq as <- _; unfold is_tok in *; destruct Hin as [Hin|[]]; congruence).
        apply (Hn s r Heq). left. destruct Hin as [Hin|[]]. exact Hin.
      + exists [], [l; r], tq. split; [reflexivity|]. rewrite app_nil_r. apply sit_wildcard; assumption.
      + exists [l], te, (r :: tq). split; [reflexivity|]. apply sit_expr; [exact H|rewrite Hl; cbn; tauto|rewrite Hr; cbn; tauto].
      + exists [l], tc, (r :: tq). split; [reflexivity|]. apply sit_content; [exact H| |eapply start_tok; [exact Hl|cbn; tauto]]. eapply nq_tok; [exact Hr|cbn; intuition discriminate].
    - destruct H as [ts ns H|ts ns H Hlen]; cbn [q_children] in Hc; [eapply seq_inside|eapply alts_inside]; eassumption.
    - subst c. exists [], ts, [w; k]. split; [reflexivity|]. apply main_sits; [exact H| |exact start_nil]. eapply nq_tok; [exact Hw|cbn; intuition discriminate].
    - match goal with Hx : In c _ |- _ => destruct Hx as [<-|[]] end. exists (ts ++ [w]), [k], []. split; [rewrite <- app_assoc; reflexivity|].
      apply sit_scope; assumption.
  Qed.
  Lemma subnode_sits m n : subnode m n -> forall pre ts post, sits pre ts post n -> inside pre ts post m.
  Proof.
    induction 1 as [|p l ch c Hin _ IH]; intros pre ts post Hs; [apply inside_self; exact Hs|].
    destruct (sits_children pre ts post _ c Hs Hin) as (a & tc & b & -> & Hc). apply inside_app. apply IH. exact Hc.
  Qed.
  Lemma query_sits ts n : sp_query E C ts n -> exists ts' e, ts = ts' ++ [e] /\ is_tok EOF e /\ sits [] ts' [] n.
  Proof.
    destruct 1 as [ts n e H He|ts n w k sc e H Hw Hk Hsc He].
    - exists ts, e. split; [reflexivity|]. split; [exact He|]. apply main_sits; [exact H| |exact start_nil]. intros s r Hx. discriminate.
    - exists (ts ++ [w; k]), e. split; [rewrite <- app_assoc; reflexivity|]. split; [exact He|]. constructor; assumption.
  Qed.
  Lemma sits_stands pre ts post n : sits pre ts post n -> stands E C ts n.
  Proof. destruct 1; try (constructor; assumption). Qed.
End Sit.

Lemma parse_sits V P q n m : env_ok V -> parse V P q = Ok n -> subnode m n ->
  exists pre tm post m0, lx_tokens (lexemes q) = pre ++ tm ++ post /\
    sits (e_penv V) (qp_cfg P) pre tm post m0 /\ m = with_locs (enableSourceLocations (qp_cfg P)) m0.
Proof.
  intros HV Hp Hm. destruct (parse_ok_inv V P q n HV Hp) as (n0 & _ & Hs & ->).
  apply subnode_with_locs in Hm. destruct Hm as (m0 & Hm & ->).
  destruct (query_sits _ _ _ _ Hs) as (ts & e & Heq & _ & Hst). unfold tokens in Heq. apply app_inj_tail in Heq. destruct Heq as [<- _].
  destruct (subnode_sits _ _ m0 n0 Hm _ _ _ Hst) as (a & tm & b & Heq & Hin).
  exists a, tm, b, m0. rewrite app_nil_r in Hin. auto.
Qed.
