(** Properties C17, C20, C25: nothing is lost or invented; the object graph. *)
From Coq Require Import String.
From Verif Require Import Base Regex LexRules Lexer Grammar Antlr Ast Builder Parser ModelTests LexSpec LitSpec LexRuleFacts LexThms LexWs LexSub
  GramSpec GramFacts ValueSpec ValueFacts SpellSpec BuilderFacts BuilderRules ParseSpec ParseFacts EvFacts TreeSpec TreeFacts SitFacts CoverSpec PropsParse.
Local Open Scope Z_scope.

Section Cover.
  Variables (E : penv) (C : pcfg).
  Notation sl := (same_leaf E C).

  (** ** Leaves *)
  Definition closed_end (ts : list token) : Prop := exists a p, ts = a ++ [p] /\ t_type p <> L_SQUARE_BRACKET.
  Lemma leaf_at_app t r y : r <> [] -> leaf_at t (r ++ y) = leaf_at t r.
  Proof. destruct r; [contradiction|reflexivity]. Qed.
  Lemma leaves_app x y : closed_end x -> query_leaves (x ++ y) = query_leaves x ++ query_leaves y.
  Proof.
    intros (a & p & -> & Hp). rewrite <- app_assoc. induction a as [|t a IH]; cbn [app query_leaves].
    - unfold leaf_at. destruct (t_type p); try reflexivity. contradiction.
    - change ([p] ++ y) with (p :: y) in *. rewrite IH, app_assoc. f_equal. f_equal.
      replace (a ++ p :: y) with ((a ++ [p]) ++ y) by (rewrite <- app_assoc; reflexivity).
      apply leaf_at_app. destruct a; discriminate.
  Qed.
  Lemma closed_end_app x y : closed_end y -> closed_end (x ++ y).
  Proof. intros (a & p & -> & Hp). exists (x ++ a), p. rewrite app_assoc. auto. Qed.
  Lemma closed_end_cons x y : closed_end y -> closed_end (x :: y).
  Proof. apply (closed_end_app [x]). Qed.
  Lemma closed_one p : t_type p <> L_SQUARE_BRACKET -> closed_end [p].
  Proof. intros H. exists [], p. auto. Qed.
  (** Tokens that are no leaves. *)
  Lemma leaves_none t r : t_type t <> REGEXP -> t_type t <> L_SQUARE_BRACKET -> query_leaves (t :: r) = query_leaves r.
  Proof. intros H1 H2. cbn. unfold leaf_at. destruct (t_type t); try reflexivity; contradiction. Qed.
  Lemma leaves_nil ts : (forall t, In t ts -> t_type t <> REGEXP /\ t_type t <> L_SQUARE_BRACKET) -> query_leaves ts = [].
  Proof.
    induction ts as [|t ts IH]; [reflexivity|]. intros H. rewrite leaves_none by (apply H; left; reflexivity). apply IH. intros x Hx. apply H. right. exact Hx.
  Qed.

  Lemma regex_leaves ts v fl q i op l : sp_regex E C ts v fl ->
    closed_end ts /\ Forall2 sl (query_leaves ts) [PExpr q i op v fl] /\ tree_leaves (QN (PExpr q i op v fl) l []) = [PExpr q i op v fl].
  Proof.
    unfold is_tok. intros H. split; [|split; [|reflexivity]].
    - destruct H as [k v Hk|k s f v S Hk Hs Hf]; [apply closed_one; congruence|]. apply closed_end_cons, closed_end_cons, closed_one. congruence.
    - destruct H as [k v Hk Hv|k s f v S Hk Hs Hf Hv]; cbn; unfold leaf_at; rewrite Hk; [|rewrite Hs, Hf]; cbn; repeat constructor; exists v; auto.
  Qed.
  Lemma op_tok o op : sp_op o op -> t_type o = OPERATOR_EQ \/ t_type o = OPERATOR_NE.
  Proof. destruct 1; auto. Qed.
  Lemma attr_toks ta q i : sp_attr ta q i -> forall t, In t ta -> In (t_type t) [IDENTIFIER; WITHIN; SIMPLE_WITHIN_SCOPE; REGEXP_FLAGS; COLON].
  Proof.
    destruct 1 as [i Hi|q c i Hq Hc Hi]; intros t Ht; unfold name_tok, is_tok in *.
    - destruct Ht as [<-|[]]. cbn in *. tauto.
    - destruct Ht as [<-|[<-|[<-|[]]]]; cbn in *; try tauto. rewrite Hc. tauto.
  Qed.
  Lemma expr_toks :
    (forall ts n, sp_expr E C ts n -> forall t, In t ts -> t_type t <> L_SQUARE_BRACKET /\ t_type t <> R_SQUARE_BRACKET) /\
    (forall sep ts ns, sp_exprs E C sep ts ns -> sep = AND \/ sep = OR -> forall t, In t ts -> t_type t <> L_SQUARE_BRACKET /\ t_type t <> R_SQUARE_BRACKET).
  Proof.
    apply sp_expr_mutind; unfold is_tok.
    - intros ta o tr q i op v fl Ha Ho Hr t Ht. rewrite in_app_iff in Ht. destruct Ht as [Ht|[<-|Ht]].
      + apply (attr_toks _ _ _ Ha) in Ht. split; intros Hx; rewrite Hx in Ht; cbn in Ht; intuition discriminate.
      + destruct (op_tok _ _ Ho) as [Hx|Hx]; rewrite Hx; split; discriminate.
      + destruct Hr as [k v Hk|k s f v S Hk Hs Hf]; cbn in Ht; unfold is_tok in *; intuition (subst; congruence).
    - intros l ts r n Hl _ IH Hr t [<-|Ht]; [split; congruence|]. rewrite in_app_iff in Ht. destruct Ht as [Ht|[<-|[]]]; [auto|split; congruence].
    - intros k ts n Hk _ IH t [<-|Ht]; [split; congruence|auto].
    - intros ts ns _ IH _ _ _ t Ht. apply IH; auto.
    - intros ts ns _ IH _ _ t Ht. apply IH; auto.
    - intros sep ts n _ IH _ t Ht. auto.
    - intros sep ts n k ts' ns _ IH Hk _ IH' Hsep t Ht. rewrite in_app_iff in Ht. destruct Ht as [Ht|[<-|Ht]]; [auto| |auto].
      rewrite Hk. destruct Hsep as [->| ->]; split; discriminate.
  Qed.
  Lemma closed_of ts : ts <> [] -> (forall t, In t ts -> t_type t <> L_SQUARE_BRACKET /\ t_type t <> R_SQUARE_BRACKET) -> closed_end ts.
  Proof.
    intros Hne H. destruct (exists_last Hne) as (a & p & ->). exists a, p. split; [reflexivity|]. apply H. apply in_or_app. right. left. reflexivity.
  Qed.
  Lemma expr_closed ts n : sp_expr E C ts n -> closed_end ts.
  Proof. intros H. apply closed_of; [exact (proj1 (expr_ne E C) ts n H)|exact (proj1 expr_toks ts n H)]. Qed.
  Lemma expr_leaves :
    (forall ts n, sp_expr E C ts n -> Forall2 sl (query_leaves ts) (tree_leaves n)) /\
    (forall sep ts ns, sp_exprs E C sep ts ns -> sep = AND \/ sep = OR -> Forall2 sl (query_leaves ts) (flat_map tree_leaves ns)).
  Proof.
    apply sp_expr_mutind; unfold is_tok.
    - intros ta o tr q i op v fl Ha Ho Hr. destruct (regex_leaves tr v fl q i op None Hr) as (_ & H & _).
      replace (ta ++ o :: tr) with ((ta ++ [o]) ++ tr) by (rewrite <- app_assoc; reflexivity).
      assert (Hn : query_leaves (ta ++ [o]) = []).
      { apply leaves_nil. intros t Ht. rewrite in_app_iff in Ht. destruct Ht as [Ht|[<-|[]]].
        - apply (attr_toks _ _ _ Ha) in Ht. split; intros Hx; rewrite Hx in Ht; cbn in Ht; intuition discriminate.
        - destruct (op_tok _ _ Ho) as [Hx|Hx]; rewrite Hx; split; discriminate. }
      rewrite leaves_app, Hn; [exact H|]. apply closed_end_app, closed_one. destruct (op_tok _ _ Ho); congruence.
    - intros l ts r n Hl Hn IH Hr. rewrite leaves_none by congruence. rewrite leaves_app by (eapply expr_closed; exact Hn).
      rewrite (leaves_nil [r]), app_nil_r; [cbn; rewrite app_nil_r; exact IH|]. intros t [<-|[]]. split; congruence.
    - intros k ts n Hk Hn IH. rewrite leaves_none by congruence. cbn. rewrite app_nil_r. exact IH.
    - intros ts ns _ IH _ _ _. apply IH. auto.
    - intros ts ns _ IH _ _. apply IH. auto.
    - intros sep ts n _ IH _. cbn. rewrite app_nil_r. exact IH.
    - intros sep ts n k ts' ns Hn IH Hk _ IH' Hsep. rewrite leaves_app by (eapply expr_closed; exact Hn).
      rewrite leaves_none by (rewrite Hk; destruct Hsep as [->| ->]; discriminate). cbn. apply Forall2_app; auto.
  Qed.
  Lemma quant_toks tq mn mx : quantified tq mn mx -> forall t, In t tq ->
    ~ In (t_type t) [REGEXP; L_SQUARE_BRACKET; R_SQUARE_BRACKET; L_PAREN].
  Proof.
    destruct 1; unfold is_tok, int_tok in *; intros x Hx; cbn [In] in Hx;
      repeat (destruct Hx as [<-|Hx]); try contradiction;
      repeat match goal with Hy : _ /\ _ |- _ => destruct Hy end;
      match goal with Hy : t_type ?a = _ |- ~ In (t_type ?a) _ => rewrite Hy; cbn; intuition discriminate end.
  Qed.
  Lemma quant_leaves tq mn mx : quantified tq mn mx -> query_leaves tq = [] /\ (tq = [] \/ closed_end tq).
  Proof.
    intros H. split.
    - apply leaves_nil. intros t Ht. pose proof (quant_toks _ _ _ H t Ht) as Hx. cbn in Hx. intuition congruence.
    - destruct tq as [|t tq']; [left; reflexivity|right]. destruct (exists_last (l := t :: tq') ltac:(discriminate)) as (a & p & Hap). exists a, p.
      split; [exact Hap|]. pose proof (quant_toks _ _ _ H p) as Hx. rewrite Hap in Hx. cbn in Hx. intros Hy. apply Hx; [apply in_or_app; right; left; reflexivity|]. auto.
  Qed.
  Lemma with_quant x tq mn mx : quantified tq mn mx -> closed_end x ->
    closed_end (x ++ tq) /\ query_leaves (x ++ tq) = query_leaves x.
  Proof.
    intros Hq Hx. destruct (quant_leaves _ _ _ Hq) as [H1 H2]. split.
    - destruct H2 as [->|H2]; [rewrite app_nil_r; exact Hx|apply closed_end_app; exact H2].
    - rewrite leaves_app, H1, app_nil_r by exact Hx. reflexivity.
  Qed.
  Lemma item_leaves :
    (forall ts n, sp_item E C ts n -> closed_end ts /\ Forall2 sl (query_leaves ts) (tree_leaves n)) /\
    (forall ts ns, sp_seq E C ts ns -> closed_end ts /\ Forall2 sl (query_leaves ts) (flat_map tree_leaves ns)) /\
    (forall ts ns, sp_alts E C ts ns -> closed_end ts /\ Forall2 sl (query_leaves ts) (flat_map tree_leaves ns)) /\
    (forall ts n, sp_operand E C ts n -> closed_end ts /\ Forall2 sl (query_leaves ts) (tree_leaves n)) /\
    (forall ts n, sp_content E C ts n -> closed_end ts /\ Forall2 sl (query_leaves ts) (tree_leaves n)).
  Proof.
    apply sp_item_mutind; unfold is_tok.
    - intros tr tq v fl mn mx Hr Hq. destruct (regex_leaves tr v fl None (default_identifier C) (default_operator C) None Hr) as (A & B & _).
      destruct (with_quant tr tq mn mx Hq A) as [D ->]. split; [exact D|exact B].
    - intros l r tq mn mx Hl Hr Hq. destruct (with_quant [l; r] tq mn mx Hq) as [D F].
      { apply closed_end_cons, closed_one. congruence. }
      split; [exact D|]. change (l :: r :: tq) with ([l; r] ++ tq). rewrite F. cbn. unfold leaf_at. rewrite Hl, Hr. cbn. repeat constructor.
    - intros l te r tq n mn mx Hl Hn Hr Hq. pose proof (expr_closed _ _ Hn) as Hc.
      replace (l :: te ++ r :: tq) with ((l :: te ++ [r]) ++ tq) by (cbn; rewrite <- app_assoc; reflexivity).
      assert (Hc' : closed_end (l :: te ++ [r])) by (apply closed_end_cons, closed_end_app, closed_one; congruence).
      destruct (with_quant _ tq mn mx Hq Hc') as [D F]. split; [exact D|]. rewrite F. cbn [tree_leaves flat_map app]. rewrite app_nil_r.
      replace (query_leaves (l :: te ++ [r])) with (query_leaves te); [exact (proj1 expr_leaves _ _ Hn)|].
      cbn [query_leaves]. rewrite leaves_app by exact Hc. rewrite (leaves_nil [r]), app_nil_r by (intros t [<-|[]]; split; congruence).
      destruct te as [|a te]; [exfalso; exact (proj1 (expr_ne E C) _ _ Hn eq_refl)|]. unfold leaf_at. rewrite Hl. cbn [app].
      destruct (ttype_eq_dec (t_type a) R_SQUARE_BRACKET) as [Hx|_]; [|reflexivity].
      exfalso. apply (proj1 expr_toks _ _ Hn a (or_introl eq_refl)). exact Hx.
    - intros l tc r tq n mn mx Hl Hn [Hc IH] Hr Hq.
      replace (l :: tc ++ r :: tq) with ((l :: tc ++ [r]) ++ tq) by (cbn; rewrite <- app_assoc; reflexivity).
      assert (Hc' : closed_end (l :: tc ++ [r])) by (apply closed_end_cons, closed_end_app, closed_one; congruence).
      destruct (with_quant _ tq mn mx Hq Hc') as [D F]. split; [exact D|]. rewrite F. cbn [tree_leaves flat_map app]. rewrite app_nil_r.
      rewrite leaves_none, leaves_app by (try congruence; exact Hc). rewrite (leaves_nil [r]), app_nil_r by (intros t [<-|[]]; split; congruence). exact IH.
    - intros ts n _ [A B]. cbn. rewrite app_nil_r. auto.
    - intros ts n ts' ns _ [A B] _ [A' B']. split; [apply closed_end_app; exact A'|]. rewrite leaves_app by exact A. cbn. apply Forall2_app; assumption.
    - intros ts n _ [A B]. cbn. rewrite app_nil_r. auto.
    - intros ts n k ts' ns _ [A B] Hk _ [A' B']. split; [apply closed_end_app, closed_end_cons; exact A'|]. rewrite leaves_app by exact A.
      rewrite leaves_none by congruence. cbn. apply Forall2_app; assumption.
    - intros ts n _ H. exact H.
    - intros ts ns _ H. exact H.
    - intros ts ns _ H. exact H.
    - intros ts ns _ H _. exact H.
  Qed.
  Lemma main_leaves ts n : sp_main E C ts n -> closed_end ts /\ Forall2 sl (query_leaves ts) (tree_leaves n).
  Proof. destruct 1; [apply (proj1 item_leaves)|apply (proj2 (proj2 (proj2 (proj2 item_leaves))))]; assumption. Qed.

  (** ** Groups *)
  Definition state (b : bool) (ts : list token) : bool :=
    fold_left (fun b t => match t_type t with L_SQUARE_BRACKET => true | R_SQUARE_BRACKET => false | _ => b end) ts b.
  Lemma parens_app x : forall y b, query_parens b (x ++ y) = query_parens b x ++ query_parens (state b x) y.
  Proof.
    induction x as [|t x IH]; intros y b; [reflexivity|]. cbn [app query_parens state fold_left]. unfold state in *.
    destruct (t_type t); rewrite IH; reflexivity.
  Qed.
  Lemma parens_none ts : (forall t, In t ts -> ~ In (t_type t) [L_SQUARE_BRACKET; R_SQUARE_BRACKET; L_PAREN]) -> forall b, query_parens b ts = [] /\ state b ts = b.
  Proof.
    induction ts as [|t ts IH]; intros H b; [split; reflexivity|]. pose proof (H t (or_introl eq_refl)) as Ht.
    assert (Hr : forall x, In x ts -> ~ In (t_type x) [L_SQUARE_BRACKET; R_SQUARE_BRACKET; L_PAREN]) by (intros x Hx; apply H; right; exact Hx).
    cbn [query_parens state fold_left]. fold (state b ts). unfold state in *.
    destruct (t_type t); try (apply IH; exact Hr); exfalso; apply Ht; cbn; tauto.
  Qed.
  Lemma state_same ts : (forall t, In t ts -> t_type t <> L_SQUARE_BRACKET /\ t_type t <> R_SQUARE_BRACKET) -> forall b, state b ts = b.
  Proof.
    induction ts as [|t ts IH]; intros H b; [reflexivity|]. pose proof (H t (or_introl eq_refl)) as [H1 H2]. cbn. unfold state in *.
    destruct (t_type t); try (apply IH; intros x Hx; apply H; right; exact Hx); contradiction.
  Qed.
  Lemma state_app x y b : state b (x ++ y) = state (state b x) y.
  Proof. unfold state. apply fold_left_app. Qed.
  Notation sp := same_paren.
  Lemma regex_parens ts v fl : sp_regex E C ts v fl -> forall b, query_parens b ts = [] /\ state b ts = b.
  Proof.
    intros H. apply parens_none. intros t Ht. destruct H as [k v Hk|k s f v S Hk Hs Hf]; unfold is_tok in *; cbn in Ht.
    - destruct Ht as [<-|[]]. rewrite Hk. cbn. intuition discriminate.
    - destruct Ht as [<-|[<-|[<-|[]]]]; [rewrite Hk|rewrite Hs|rewrite Hf]; cbn; intuition discriminate.
  Qed.
  Lemma expr_parens :
    (forall ts n, sp_expr E C ts n -> Forall2 sp (query_parens true ts) (tree_groups n)) /\
    (forall sep ts ns, sp_exprs E C sep ts ns -> sep = AND \/ sep = OR -> Forall2 sp (query_parens true ts) (flat_map tree_groups ns)).
  Proof.
    apply sp_expr_mutind; unfold is_tok.
    - intros ta o tr q i op v fl Ha Ho Hr. rewrite parens_app.
      replace (query_parens true ta) with (@nil (bool * Z)).
      2:{ symmetry. apply parens_none. intros t Ht. apply (attr_toks _ _ _ Ha) in Ht. cbn in *. intros Hx. destruct Ht as [Ht|[Ht|[Ht|[Ht|[Ht|[]]]]]]; rewrite <- Ht in Hx; intuition discriminate. }
      cbn [app query_parens tree_groups flat_map]. destruct (op_tok _ _ Ho) as [Hx|Hx]; rewrite Hx; rewrite (proj1 (regex_parens _ _ _ Hr _)); constructor.
    - intros l ts r n Hl Hn IH Hr. cbn [query_parens]. rewrite Hl. rewrite parens_app. cbn [query_parens]. rewrite Hr. rewrite app_nil_r. cbn [tree_groups flat_map app].
      rewrite app_nil_r. constructor; [split; [reflexivity|eexists; reflexivity]|exact IH].
    - intros k ts n Hk Hn IH. cbn [query_parens]. rewrite Hk. cbn. rewrite app_nil_r. exact IH.
    - intros ts ns _ IH _ _ _. apply IH. auto.
    - intros ts ns _ IH _ _. apply IH. auto.
    - intros sep ts n _ IH _. cbn. rewrite app_nil_r. exact IH.
    - intros sep ts n k ts' ns Hn IH Hk Hns IH' Hsep. rewrite parens_app. rewrite (state_same ts (proj1 expr_toks _ _ Hn)).
      cbn [query_parens]. rewrite Hk. cbn [flat_map]. destruct Hsep as [->| ->]; apply Forall2_app; auto.
  Qed.
  Lemma quant_parens tq mn mx : quantified tq mn mx -> forall b, query_parens b tq = [] /\ state b tq = b.
  Proof.
    intros H. apply parens_none. intros t Ht. pose proof (quant_toks _ _ _ H t Ht) as Hx. cbn in *. tauto.
  Qed.
  Definition balanced_at (ts : list token) (gs : list (bool * option sloc)) : Prop :=
    state false ts = false /\ Forall2 sp (query_parens false ts) gs.
  Lemma balanced_app x y g g' : balanced_at x g -> balanced_at y g' -> balanced_at (x ++ y) (g ++ g').
  Proof.
    intros [A B] [A' B']. split; [rewrite state_app, A; exact A'|]. rewrite parens_app, A. apply Forall2_app; assumption.
  Qed.
  Lemma item_parens :
    (forall ts n, sp_item E C ts n -> balanced_at ts (tree_groups n)) /\
    (forall ts ns, sp_seq E C ts ns -> balanced_at ts (flat_map tree_groups ns)) /\
    (forall ts ns, sp_alts E C ts ns -> balanced_at ts (flat_map tree_groups ns)) /\
    (forall ts n, sp_operand E C ts n -> balanced_at ts (tree_groups n)) /\
    (forall ts n, sp_content E C ts n -> balanced_at ts (tree_groups n)).
  Proof.
    apply sp_item_mutind; unfold is_tok.
    - intros tr tq v fl mn mx Hr Hq. change (tree_groups _) with (@nil (bool * option sloc)). change (@nil (bool * option sloc)) with (@nil (bool * option sloc) ++ []).
      destruct (regex_parens _ _ _ Hr false) as [A B]. destruct (quant_parens _ _ _ Hq false) as [A' B'].
      apply balanced_app; (split; [assumption|]); [rewrite A|rewrite A']; constructor.
    - intros l r tq mn mx Hl Hr Hq. destruct (quant_parens _ _ _ Hq false) as [A' B']. split.
      + cbn. rewrite Hl, Hr. exact B'.
      + cbn. rewrite Hl, Hr, A'. constructor.
    - intros l te r tq n mn mx Hl Hn Hr Hq. destruct (quant_parens _ _ _ Hq false) as [A' B'].
      pose proof (state_same te (proj1 expr_toks _ _ Hn) true) as Hst. split.
      + cbn. rewrite Hl. fold (state true (te ++ r :: tq)). rewrite state_app, Hst. cbn. rewrite Hr. exact B'.
      + cbn [query_parens]. rewrite Hl. rewrite parens_app, Hst. cbn [query_parens]. rewrite Hr, A', app_nil_r. cbn. rewrite app_nil_r. apply (proj1 expr_parens). exact Hn.
    - intros l tc r tq n mn mx Hl Hn [IH1 IH2] Hr Hq. destruct (quant_parens _ _ _ Hq false) as [A' B']. split.
      + cbn. rewrite Hl. fold (state false (tc ++ r :: tq)). rewrite state_app, IH1. cbn. rewrite Hr. exact B'.
      + cbn [query_parens]. rewrite Hl. rewrite parens_app, IH1. cbn [query_parens]. rewrite Hr, A', app_nil_r. cbn. rewrite app_nil_r.
        constructor; [|exact IH2]. split; [reflexivity|]. eexists. reflexivity.
    - intros ts n _ H. cbn. rewrite app_nil_r. exact H.
    - intros ts n ts' ns _ H _ H'. cbn. apply balanced_app; assumption.
    - intros ts n _ H. cbn. rewrite app_nil_r. exact H.
    - intros ts n k ts' ns _ H Hk _ H'. cbn. apply balanced_app; [exact H|]. destruct H' as [A B]. split; cbn; rewrite Hk; assumption.
    - intros ts n _ H. exact H.
    - intros ts ns _ H. exact H.
    - intros ts ns _ H. exact H.
    - intros ts ns _ H _. exact H.
  Qed.
  Lemma main_parens ts n : sp_main E C ts n -> balanced_at ts (tree_groups n).
  Proof. destruct 1; [apply (proj1 item_parens)|apply (proj2 (proj2 (proj2 (proj2 item_parens))))]; assumption. Qed.
End Cover.

Lemma erase_leaves n : tree_leaves (erase n) = tree_leaves n.
Proof.
  induction n as [p l ch IH] using qnode_ind'. cbn. f_equal. induction IH as [|c ch Hc _ IH']; [reflexivity|]. cbn. rewrite Hc, IH'. reflexivity.
Qed.
Lemma erase_groups n : map fst (tree_groups (erase n)) = map fst (tree_groups n).
Proof.
  induction n as [p l ch IH] using qnode_ind'. cbn. rewrite !map_app. f_equal; [destruct p; reflexivity|].
  induction IH as [|c ch Hc _ IH']; [reflexivity|]. cbn. rewrite !map_app, Hc, IH'. reflexivity.
Qed.

(** C17.  The leaves of the tree are the literals and empty brackets of the query, in order. *)
Theorem C17_leaves : forall V P q n, env_ok V -> parse V P q = Ok n ->
  Forall2 (same_leaf (e_penv V) (qp_cfg P)) (query_leaves (lx_tokens (lexemes q))) (tree_leaves n).
Proof.
  intros V P q n HV Hp. destruct (parse_ok_inv V P q n HV Hp) as (n0 & _ & Hs & ->).
  replace (tree_leaves _) with (tree_leaves n0) by (unfold with_locs; destruct (enableSourceLocations _); [reflexivity|symmetry; apply erase_leaves]).
  rewrite tokens_split in Hs. remember (lx_tokens (lexemes q) ++ [eof_token q]) as ts eqn:Hts.
  destruct Hs as [ts n e H He|ts n w k sc e H Hw Hk Hsc He].
  - apply app_inj_tail in Hts. destruct Hts as [<- _]. apply main_leaves. exact H.
  - change [w; k; e] with ([w; k] ++ [e]) in Hts. rewrite app_assoc in Hts. apply app_inj_tail in Hts. destruct Hts as [<- _].
    destruct (main_leaves _ _ _ _ H) as [A B]. rewrite leaves_app by exact A. unfold is_tok in *.
    rewrite (leaves_nil [w; k]), app_nil_r by (intros t [<-|[<-|[]]]; split; congruence). cbn. rewrite app_nil_r. exact B.
Qed.

(** C20.  Parentheses and group nodes correspond one to one, in order. *)
Lemma C20_base V P q n0 : sp_query (e_penv V) (qp_cfg P) (tokens q) n0 ->
  Forall2 same_paren (query_parens false (lx_tokens (lexemes q))) (tree_groups n0).
Proof.
  intros Hs. rewrite tokens_split in Hs. remember (lx_tokens (lexemes q) ++ [eof_token q]) as ts eqn:Hts.
  destruct Hs as [ts n e H He|ts n w k sc e H Hw Hk Hsc He].
  - apply app_inj_tail in Hts. destruct Hts as [<- _]. apply (main_parens _ _ _ _ H).
  - change [w; k; e] with ([w; k] ++ [e]) in Hts. rewrite app_assoc in Hts. apply app_inj_tail in Hts. destruct Hts as [<- _].
    destruct (main_parens _ _ _ _ H) as [A B]. rewrite parens_app, A. cbn. rewrite Hw, Hk, !app_nil_r. exact B.
Qed.
Theorem C20_parens : forall V P q n, env_ok V -> parse V P q = Ok n ->
  map fst (tree_groups n) = map fst (query_parens false (lx_tokens (lexemes q))) /\
  (enableSourceLocations (qp_cfg P) = true ->
   Forall2 same_paren (query_parens false (lx_tokens (lexemes q))) (tree_groups n)).
Proof.
  intros V P q n HV Hp. destruct (parse_ok_inv V P q n HV Hp) as (n0 & _ & Hs & ->). apply C20_base in Hs. split.
  - replace (map fst (tree_groups _)) with (map fst (tree_groups n0)) by (unfold with_locs; destruct (enableSourceLocations _); [reflexivity|symmetry; apply erase_groups]).
    induction Hs as [|a b la lb [Hab _] _ IH]; [reflexivity|]. cbn. rewrite Hab, IH. reflexivity.
  - intros ->. exact Hs.
Qed.


(** A query with literals, an empty bracket pair and parentheses of both kinds. *)
Example C17_witness : exists n, parse some_env (new_parser (default_cfg true)) (u "('a' | [(b = 'c' | (d = 'e'))] [])") = Ok n /\
  map (option_map t_text) (query_leaves (lx_tokens (lexemes (u "('a' | [(b = 'c' | (d = 'e'))] [])")))) = [Some (u "'a'"); Some (u "'c'"); Some (u "'e'"); None] /\
  map (fun p => match p with PExpr _ _ _ v _ => Some v | _ => None end) (tree_leaves n) = [Some (u "a"); Some (u "c"); Some (u "e"); None].
Proof. eexists. split; [vm_compute; reflexivity|]. split; vm_compute; reflexivity. Qed.
Example C20_witness : exists n, parse some_env (new_parser (default_cfg true)) (u "('a' | [(b = 'c' | (d = 'e'))] [])") = Ok n /\
  query_parens false (lx_tokens (lexemes (u "('a' | [(b = 'c' | (d = 'e'))] [])"))) = [(false, 0); (true, 8); (true, 19)] /\
  tree_groups n = [(false, Some (mkLoc 0 34)); (true, Some (mkLoc 8 29)); (true, Some (mkLoc 19 28))].
Proof. eexists. split; [vm_compute; reflexivity|]. split; vm_compute; reflexivity. Qed.
