(** Every node of a parsed tree stands for a contiguous part of the query. *)
From Coq Require Import String.
From Verif Require Import Base Regex LexRules Lexer Grammar Antlr Ast Builder Parser LexSpec LitSpec LexThms LexWs LexSub
  GramSpec GramFacts ValueSpec ValueFacts SpellSpec BuilderFacts BuilderRules ParseSpec ParseFacts EvFacts TreeSpec.
Local Open Scope Z_scope.

Section Tree.
  Variables (E : penv) (C : pcfg).
  Notation stands := (stands E C).

  Inductive parts : list token -> list qnode -> Prop :=
  | parts_nil ts : parts ts []
  | parts_cons pre tc c post cs : stands tc c -> parts post cs -> parts (pre ++ tc ++ post) (c :: cs).
  Lemma parts_one pre tc c post : stands tc c -> parts (pre ++ tc ++ post) [c].
  Proof. intros H. constructor; [exact H|constructor]. Qed.
  Lemma parts_whole tc c : stands tc c -> parts tc [c].
  Proof. intros H. rewrite <- (app_nil_r tc). change (tc ++ []) with ([] ++ tc ++ []). apply parts_one. exact H. Qed.
  Lemma parts_pre pre ts cs : parts ts cs -> parts (pre ++ ts) cs.
  Proof.
    intros H. inversion H; subst; [constructor|]. rewrite app_assoc. constructor; assumption.
  Qed.
  Lemma parts_exprs :
    (forall ts n, sp_expr E C ts n -> True) /\
    (forall sep ts ns, sp_exprs E C sep ts ns -> parts ts ns).
  Proof.
    apply sp_expr_mutind; try (intros; exact I).
    - intros sep ts n Hn _. apply parts_whole. apply st_expr. exact Hn.
    - intros sep ts n k ts' ns Hn _ Hk Hns IH. change (ts ++ k :: ts') with ([] ++ ts ++ [k] ++ ts').
      constructor; [apply st_expr; exact Hn|]. apply parts_pre. exact IH.
  Qed.
  Lemma item_parts :
    (forall ts n, sp_item E C ts n -> True) /\
    (forall ts ns, sp_seq E C ts ns -> parts ts ns) /\
    (forall ts ns, sp_alts E C ts ns -> parts ts ns) /\
    (forall ts n, sp_operand E C ts n -> stands ts n) /\
    (forall ts n, sp_content E C ts n -> True).
  Proof.
    apply sp_item_mutind; try (intros; exact I).
    - intros ts n Hn _. apply parts_whole. apply st_item. exact Hn.
    - intros ts n ts' ns Hn _ Hns IH. change (ts ++ ts') with ([] ++ ts ++ ts'). constructor; [apply st_item; exact Hn|exact IH].
    - intros ts n Hn IH. apply parts_whole. exact IH.
    - intros ts n k ts' ns Hn IH Hk Hns IH'. change (ts ++ k :: ts') with ([] ++ ts ++ [k] ++ ts').
      constructor; [exact IH|]. apply parts_pre. exact IH'.
    - intros ts n Hn _. apply st_item. exact Hn.
    - intros ts ns Hns _. apply st_content, sc_seq. exact Hns.
  Qed.
  Lemma main_stands ts n : sp_main E C ts n -> stands ts n.
  Proof. destruct 1; [apply st_item|apply st_content]; assumption. Qed.

  Ltac one p t c := match goal with |- parts ?l _ => first
    [ change l with (p ++ t ++ c) | idtac ] end.
  Lemma stands_parts ts n : stands ts n -> parts ts (q_children n).
  Proof.
    destruct 1 as [ts n H|ts v fl H|l r Hl Hr|ts n H|ts n H|k sc Hk Hs|ts n w k sc H Hw Hk Hs]; cbn [q_children]; try exact (parts_nil _).
    - destruct H; cbn [q_children].
      + constructor.
      + change (l :: ts ++ [r]) with ([l] ++ ts ++ [r]). apply parts_one. apply st_expr. assumption.
      + change (k :: ts) with ([k] ++ ts). apply parts_pre, parts_whole. apply st_expr. assumption.
      + eapply parts_exprs; eassumption.
      + eapply parts_exprs; eassumption.
    - destruct H; cbn [q_children].
      + change (tr ++ tq) with ([] ++ tr ++ tq). apply parts_one. apply st_bare. assumption.
      + change (l :: r :: tq) with ([] ++ [l; r] ++ tq). apply parts_one. apply st_wildcard; assumption.
      + change (l :: te ++ r :: tq) with ([l] ++ te ++ r :: tq). apply parts_one. apply st_expr. assumption.
      + change (l :: tc ++ r :: tq) with ([l] ++ tc ++ r :: tq). apply parts_one. apply st_content. assumption.
    - destruct H as [ts ns H|ts ns H Hl]; cbn [q_children]; [exact (proj1 (proj2 item_parts) _ _ H)|exact (proj1 (proj2 (proj2 item_parts)) _ _ H)].
    - change (ts ++ [w; k]) with ([] ++ ts ++ [w; k]). constructor; [apply main_stands; exact H|].
      change [w; k] with ([w] ++ [k] ++ []). apply parts_one. constructor; assumption.
  Qed.

  (** Non-empty. *)
  Lemma attr_ne ts q i : sp_attr ts q i -> ts <> [].
  Proof. destruct 1; discriminate. Qed.
  Lemma regex_ne ts v fl : sp_regex E C ts v fl -> ts <> [].
  Proof. destruct 1; discriminate. Qed.
  Lemma expr_ne : (forall ts n, sp_expr E C ts n -> ts <> []) /\ (forall sep ts ns, sp_exprs E C sep ts ns -> ts <> []).
  Proof.
    apply sp_expr_mutind; try (intros; discriminate); auto.
    - intros ta o tr q i op v fl _ _ _ H. destruct ta; discriminate.
    - intros sep ts n k ts' ns _ _ _ _ _ H. destruct ts; discriminate.
  Qed.
  Lemma item_ne : (forall ts n, sp_item E C ts n -> ts <> []) /\ (forall ts ns, sp_seq E C ts ns -> ts <> []) /\
    (forall ts ns, sp_alts E C ts ns -> ts <> []) /\ (forall ts n, sp_operand E C ts n -> ts <> []) /\
    (forall ts n, sp_content E C ts n -> ts <> []).
  Proof.
    apply sp_item_mutind; try (intros; discriminate); auto.
    - intros tr tq v fl mn mx Hr _ H. apply regex_ne in Hr. destruct tr; [contradiction|discriminate].
    - intros ts n ts' ns _ IH _ _ H. destruct ts; [contradiction|discriminate].
    - intros ts n k ts' ns _ _ _ _ _ H. destruct ts; discriminate.
  Qed.
  Lemma main_ne ts n : sp_main E C ts n -> ts <> [].
  Proof. destruct 1; [eapply (proj1 item_ne)|eapply (proj2 (proj2 (proj2 (proj2 item_ne))))]; eassumption. Qed.
  Lemma stands_ne ts n : stands ts n -> ts <> [].
  Proof.
    destruct 1; try discriminate.
    - eapply (proj1 expr_ne); eassumption.
    - eapply regex_ne; eassumption.
    - eapply (proj1 item_ne); eassumption.
    - eapply (proj2 (proj2 (proj2 (proj2 item_ne)))); eassumption.
    - destruct ts; discriminate.
  Qed.
  Lemma stands_loc ts n : stands ts n -> q_loc n = span ts.
  Proof.
    destruct 1 as [ts n H|ts v fl H|l r Hl Hr|ts n H|ts n H|k sc Hk Hs|ts n w k sc H Hw Hk Hs]; try reflexivity; destruct H; reflexivity.
  Qed.

  Lemma parts_in ts cs c : parts ts cs -> In c cs -> exists pre tc post, ts = pre ++ tc ++ post /\ stands tc c.
  Proof.
    induction 1 as [|pre tc c' post cs Hc _ IH]; [intros []|]. intros [<-|Hin]; [eauto|].
    destruct (IH Hin) as (pre' & tc' & post' & -> & H). exists (pre ++ tc ++ pre'), tc', post'. split; [|exact H].
    rewrite !app_assoc. reflexivity.
  Qed.
  Lemma subnode_stands m n : subnode m n -> forall ts, stands ts n ->
    exists pre tm post, ts = pre ++ tm ++ post /\ stands tm m.
  Proof.
    induction 1 as [|p l ch c Hin _ IH]; intros ts Hs.
    - exists [], ts, []. rewrite app_nil_r. auto.
    - destruct (parts_in _ _ c (stands_parts _ _ Hs) Hin) as (pre & tc & post & -> & Hc).
      destruct (IH tc Hc) as (pre' & tm & post' & -> & Hm). exists (pre ++ pre'), tm, (post' ++ post).
      split; [|exact Hm]. rewrite !app_assoc. reflexivity.
  Qed.
  Lemma query_stands ts n : sp_query E C ts n -> exists ts' e, ts = ts' ++ [e] /\ is_tok EOF e /\ stands ts' n.
  Proof.
    destruct 1 as [ts n e H He|ts n w k sc e H Hw Hk Hsc He].
    - exists ts, e. split; [reflexivity|]. split; [exact He|]. apply main_stands. exact H.
    - exists (ts ++ [w; k]), e. split; [rewrite <- app_assoc; reflexivity|]. split; [exact He|]. constructor; assumption.
  Qed.
End Tree.

(** Erasing locations. *)
Lemma subnode_erase m n : subnode m (erase n) -> exists m0, subnode m0 n /\ m = erase m0.
Proof.
  revert m. induction n as [p l ch IH] using qnode_ind'. intros m H. cbn [erase] in H. inversion H; subst.
  - exists (QN p l ch). split; [constructor|reflexivity].
  - match goal with Hi : In _ (map erase ch) |- _ => apply in_map_iff in Hi; destruct Hi as (c0 & <- & Hin) end.
    rewrite Forall_forall in IH. destruct (IH c0 Hin m) as (m0 & Hm & ->); [assumption|].
    exists m0. split; [|reflexivity]. econstructor; eassumption.
Qed.
Lemma subnode_with_locs b m n : subnode m (with_locs b n) -> exists m0, subnode m0 n /\ m = with_locs b m0.
Proof. destruct b; cbn [with_locs]; [eauto|apply subnode_erase]. Qed.
Lemma erase_payload n : q_payload (erase n) = q_payload n.
Proof. destruct n; reflexivity. Qed.
Lemma erase_children n : q_children (erase n) = map erase (q_children n).
Proof. destruct n; reflexivity. Qed.
Lemma with_locs_payload b n : q_payload (with_locs b n) = q_payload n.
Proof. destruct b, n; reflexivity. Qed.
Lemma with_locs_children b n : q_children (with_locs b n) = map (with_locs b) (q_children n).
Proof. destruct b; cbn; [symmetry; apply map_id|apply erase_children]. Qed.
Lemma with_locs_class b n : q_class (with_locs b n) = q_class n.
Proof. unfold q_class. rewrite with_locs_payload. reflexivity. Qed.

Lemma subnode_trans a b c : subnode a b -> subnode b c -> subnode a c.
Proof. intros H. induction 1; [exact H|]. econstructor; eassumption. Qed.

Lemma tokens_split q : tokens q = lx_tokens (lexemes q) ++ [eof_token q].
Proof. reflexivity. Qed.

(** Every node of a parsed tree. *)
Lemma parse_node V P q n m : env_ok V -> parse V P q = Ok n -> subnode m n ->
  exists pre tm post m0, lx_tokens (lexemes q) = pre ++ tm ++ post /\
    stands (e_penv V) (qp_cfg P) tm m0 /\ m = with_locs (enableSourceLocations (qp_cfg P)) m0.
Proof.
  intros HV Hp Hm. destruct (parse_ok_inv V P q n HV Hp) as (n0 & _ & Hs & ->).
  destruct (subnode_with_locs _ _ _ Hm) as (m0 & Hm0 & ->).
  destruct (query_stands _ _ _ _ Hs) as (ts & e & Hts & _ & Hst).
  destruct (subnode_stands _ _ _ _ Hm0 _ Hst) as (pre & tm & post & -> & Hm1).
  rewrite tokens_split in Hts. apply app_inj_tail in Hts. destruct Hts as [Hts _].
  exists pre, tm, post, m0. auto.
Qed.
