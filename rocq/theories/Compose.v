(** Moving tokens; the levels between square brackets do not depend on what stands outside. *)
From Coq Require Import String.
From Verif Require Import Base Regex LexRules Lexer Grammar Antlr Ast Builder Parser LexSpec LitSpec
  GramSpec GramFacts ValueSpec ValueFacts SpellSpec BuilderFacts BuilderRules ParseSpec ParseFacts LevelFacts SelFacts PrecFacts PrecConv EvFacts SimFacts
  TreeSpec TreeFacts SitFacts LevelSpec LevelThm QuerySpec SubEv PropsParse PropsTree PropsPrec PropsQuery ReadSpec ReadFacts ReadQuery ReadParse ReadTop Outer Local ComposeSpec LexJoin.
Local Open Scope Z_scope.

Lemma mv_span k ts : span (map (mv k) ts) = option_map (move_loc k) (span ts).
Proof.
  destruct ts as [|a ts]; [reflexivity|]. cbn [map span option_map]. unfold move_loc. cbn [l_start l_stop].
  assert (H : last (mv k a :: map (mv k) ts) (mv k a) = mv k (last (a :: ts) a)).
  { change (mv k a :: map (mv k) ts) with (map (mv k) (a :: ts)). destruct (exists_last (l := a :: ts) ltac:(discriminate)) as (x & z & ->). rewrite map_app. cbn [map]. rewrite !last_last. reflexivity. }
  rewrite H. cbn [mv t_start t_stop]. f_equal. f_equal; lia.
Qed.
Lemma strip_mv k t : strip (mv k t) = strip t. Proof. reflexivity. Qed.
Lemma strip_move k t : strip_tree (move (mv k) t) = strip_tree t.
Proof.
  induction t as [a|r ch IH] using ptree_ind'; [reflexivity|]. cbn [move strip_tree]. f_equal. rewrite map_map. apply map_ext_in. rewrite Forall_forall in IH. exact IH.
Qed.
Lemma strip_moves k ch : map strip_tree (map (move (mv k)) ch) = map strip_tree ch.
Proof. rewrite map_map. apply map_ext. apply strip_move. Qed.
Lemma leaves_move f t : leaves (move f t) = map f (leaves t).
Proof.
  induction t as [a|r ch IH] using ptree_ind'; [reflexivity|]. cbn [move leaves]. induction IH as [|c ch Hc _ IH']; [reflexivity|]. cbn [map flat_map]. rewrite map_app, Hc. f_equal. exact IH'.
Qed.
Lemma fromContext_move k t : fromContext (move (mv k) t) = option_map (move_loc k) (fromContext t).
Proof.
  unfold fromContext, ctx_start, ctx_stop. rewrite leaves_move. set (l := leaves t). clearbody l.
  assert (H1 : hd_error (map (mv k) l) = option_map (mv k) (hd_error l)) by (destruct l; reflexivity).
  assert (H2 : filter (fun x => negb (ttype_eqb (t_type x) EOF)) (map (mv k) l) = map (mv k) (filter (fun x => negb (ttype_eqb (t_type x) EOF)) l)).
  { clear H1. induction l as [|x l IH]; [reflexivity|]. cbn [map filter]. change (t_type (mv k x)) with (t_type x). destruct (negb (ttype_eqb (t_type x) EOF)); [cbn [map]; f_equal; exact IH|exact IH]. }
  rewrite H1, H2, <- map_rev. set (l2 := rev _). clearbody l2. destruct l as [|a l]; [reflexivity|]. destruct l2 as [|b l2]; [reflexivity|]. cbn. unfold move_loc. cbn. f_equal. f_equal; lia.
Qed.

Section Ev.
  Variables (E : penv) (C : pcfg) (k : Z).
  Notation mvt := (move (mv k)).
  Lemma find_rule_some r ch : match find_rule r (map mvt ch) with Some _ => true | None => false end = match find_rule r ch with Some _ => true | None => false end.
  Proof.
    pose proof (find_rule_strip r ch) as A. pose proof (find_rule_strip r (map mvt ch)) as B. rewrite strip_moves, A in B.
    destruct (find_rule r (map mvt ch)), (find_rule r ch); cbn in B; try discriminate B; reflexivity.
  Qed.
  Lemma repetition_move ch : repetition E (map mvt ch) = repetition E ch.
  Proof. rewrite <- repetition_strip, strip_moves. apply repetition_strip. Qed.
  Lemma regexp_move ch : ev_regexp E C (map mvt ch) = ev_regexp E C ch.
  Proof. rewrite <- ev_regexp_strip, strip_moves. apply ev_regexp_strip. Qed.
  Lemma attribute_move ch : ev_attribute (map mvt ch) = ev_attribute ch.
  Proof. rewrite <- ev_attribute_strip, strip_moves. apply ev_attribute_strip. Qed.
  Lemma has_token_move ty ch : has_token ty (map mvt ch) = has_token ty ch.
  Proof. rewrite <- has_token_strip, strip_moves. apply has_token_strip. Qed.
  Lemma get_text_move c : get_text (mvt c) = get_text c.
  Proof. rewrite <- get_text_strip, strip_move. apply get_text_strip. Qed.
  Lemma ev_node_move r t ch qs :
    ev_node E C r (mvt t) (map mvt ch) (option_map (map (move_locs k)) qs) = option_map (move_locs k) (ev_node E C r t ch qs).
  Proof.
    pose proof (find_rule_some within_part ch) as Hw.
    destruct r; cbn [ev_node]; rewrite ?repetition_move, ?regexp_move, ?attribute_move, ?has_token_move, ?map_length, ?fromContext_move.
    all: try reflexivity.
    all: try (destruct (ev_attribute ch) as [[q i]|]; [|reflexivity]; destruct (ev_regexp E C ch) as [[v fl]|]; reflexivity).
    all: try (destruct (ev_regexp E C ch) as [[v fl]|]; reflexivity).
    all: try (destruct ch as [|c ch]; [reflexivity|]; cbn [map]; rewrite get_text_move; destruct (within_scope (get_text c)); reflexivity).
    all: try (destruct (find_rule within_part (map mvt ch)), (find_rule within_part ch); try discriminate Hw).
    all: destruct qs as [[|a [|b [|c l]]]|]; try reflexivity.
    all: try (destruct (repetition E ch) as [[mn mx]|]; reflexivity).
    all: try (destruct (List.length ch =? 2)%nat; reflexivity).
  Qed.
  Lemma ev_move t : ev E C (mvt t) = option_map (move_locs k) (ev E C t).
  Proof.
    induction t as [a|r ch IH] using ptree_ind'; [reflexivity|]. cbn [move]. rewrite !ev_eq. change (Node r (map mvt ch)) with (mvt (Node r ch)). rewrite <- ev_node_move. f_equal.
    induction IH as [|c ch Hc _ IH']; [reflexivity|]. destruct c as [a|r' cc]; cbn [map evs move]; [exact IH'|].
    destruct (valueless r'); [exact IH'|]. cbn [move] in Hc. rewrite Hc, IH'. destruct (ev E C (Node r' cc)); [|reflexivity]. destruct (evs E C ch); reflexivity.
  Qed.

  (** Spellings of parts. *)
  Lemma mv_regex tr v fl : sp_regex E C tr v fl -> sp_regex E C (map (mv k) tr) v fl.
  Proof. intros H. inversion H; subst; cbn [map]; [apply sr_plain|apply (sr_flags _ _ (mv k k0) (mv k s) (mv k f))]; assumption. Qed.
  Lemma mv_attr ta q i : sp_attr ta q i -> sp_attr (map (mv k) ta) q i.
  Proof. intros H. inversion H; subst; cbn [map]; [apply (sa_plain (mv k i0))|apply (sa_qual (mv k q0) (mv k c) (mv k i0))]; assumption. Qed.
  Lemma mv_quant tq mn mx : quantified tq mn mx -> quantified (map (mv k) tq) mn mx.
  Proof. intros H. inversion H; subst; cbn [map]; econstructor; eassumption. Qed.
  Lemma mv_payload n : q_payload (move_locs k n) = q_payload n.
  Proof. destruct n; reflexivity. Qed.
  Lemma mv_class n : q_class (move_locs k n) = q_class n.
  Proof. destruct n; reflexivity. Qed.
  Lemma mv_expr :
    (forall ts n, sp_expr E C ts n -> sp_expr E C (map (mv k) ts) (move_locs k n)) /\
    (forall sep ts ns, sp_exprs E C sep ts ns -> sp_exprs E C sep (map (mv k) ts) (map (move_locs k) ns)).
  Proof.
    apply (sp_expr_mutind E C (fun ts n => sp_expr E C (map (mv k) ts) (move_locs k n)) (fun sep ts ns => sp_exprs E C sep (map (mv k) ts) (map (move_locs k) ns))); cbn [move_locs].
    - intros ta o tr q i op v fl Ha Ho Hr. rewrite <- mv_span, map_app. cbn [map]. apply se_basic; [apply mv_attr; exact Ha|inversion Ho; subst; constructor; assumption|apply mv_regex; exact Hr].
    - intros l ts r n Hl _ IH Hr. rewrite <- mv_span. cbn [map]. rewrite map_app. apply se_group; assumption.
    - intros x ts n Hk _ IH. rewrite <- mv_span. cbn [map]. apply se_not; assumption.
    - intros ts ns _ IH Hl H1 H2. rewrite <- mv_span. apply se_and; [exact IH|rewrite map_length; exact Hl| |].
      + intros n Hn. apply in_map_iff in Hn. destruct Hn as (x & <- & Hn). rewrite mv_payload. auto.
      + intros n Hn. destruct ns as [|x ns]; [discriminate|]. cbn in Hn. injection Hn as <-. rewrite mv_payload. auto.
    - intros ts ns _ IH Hl H1. rewrite <- mv_span. apply se_or; [exact IH|rewrite map_length; exact Hl|].
      intros n Hn. apply in_map_iff in Hn. destruct Hn as (x & <- & Hn). rewrite mv_payload. auto.
    - intros. apply ses_one. assumption.
    - intros. rewrite map_app. cbn [map]. apply ses_more; assumption.
  Qed.
End Ev.

(** ** Levels *)
Definition rsb : token := mkTok R_SQUARE_BRACKET [] 0 0 0 0.
Section Lv.
  Variables (E : penv) (C : pcfg).
  Definition lv (te : list token) (c : qnode) : Prop :=
    sp_expr E C te c /\ exists t, selects E5 [Tk [R_SQUARE_BRACKET]] (te ++ [rsb]) [t] [rsb] /\ ev E C t = Some c.
  Lemma E5_goes : goes 0 [E5].
  Proof. exists 0, 0. split; [vm_compute; reflexivity|]. split; [lia|reflexivity]. Qed.
  Lemma level_context te t c K kc R c2 K2 kc2 R2 : balanced (types te) ->
    selects E5 (Tk [c] :: K) (te ++ kc :: R) [t] (kc :: R) -> t_type kc = c -> closes c = true -> viable K (types R) ->
    t_type kc2 = c2 -> closes c2 = true -> viable K2 (types R2) ->
    selects E5 (Tk [c2] :: K2) (te ++ kc2 :: R2) [t] (kc2 :: R2).
  Proof.
    intros Hb Hs Hk Hc HK Hk2 Hc2 HK2. destruct (sel_local _ _ _ _ _ Hs 0 [] c K kc R te eq_refl eq_refl Hk Hc HK E5_goes Hb) as (d' & w' & Hr & Hg & Hw & Hx).
    assert (w' = []) as ->. { change (kc :: R) with ([] ++ kc :: R) in Hr. apply app_inv_tail in Hr. auto. }
    apply (Hx c2 K2 kc2 R2 Hk2 Hc2 HK2).
  Qed.
  Lemma lv_of te t c c0 K kc R : sp_expr E C te c0 -> selects E5 (Tk [c] :: K) (te ++ kc :: R) [t] (kc :: R) -> t_type kc = c -> closes c = true -> viable K (types R) ->
    ev E C t = Some c0 -> lv te c0.
  Proof.
    intros Hsp Hs Hk Hc HK Hev. split; [exact Hsp|]. exists t. split; [|exact Hev].
    eapply level_context; [eapply (proj1 (expr_balanced E C)); exact Hsp|exact Hs|exact Hk|exact Hc|exact HK|reflexivity|reflexivity|apply viable_nil].
  Qed.
  Lemma lv_sp te c : lv te c -> sp_expr E C te c. Proof. intros [H _]. exact H. Qed.
  Lemma lv_fun te c c' : lv te c -> lv te c' -> c = c'.
  Proof. intros [_ (t & Hs & Ht)] [_ (t' & Hs' & Ht')]. destruct (selects_det _ _ _ _ _ Hs _ _ Hs') as [H _]. injection H as <-. congruence. Qed.
  Lemma lv_mv k te c : lv te c -> lv (map (mv k) te) (move_locs k c).
  Proof.
    intros [Hsp (t & Hs & Ht)]. assert (Hsp' : sp_expr E C (map (mv k) te) (move_locs k c)) by (apply (proj1 (mv_expr E C k)); exact Hsp).
    apply (sel_move (mv k)) in Hs; [|reflexivity]. rewrite map_app in Hs. cbn [map] in Hs.
    eapply lv_of; [exact Hsp'|exact Hs|reflexivity|reflexivity|apply viable_nil|]. rewrite ev_move, Ht. reflexivity.
  Qed.

  (** ** Moving a query *)
  Lemma o_mv k :
    (forall ts n, o_item E C lv ts n -> o_item E C lv (map (mv k) ts) (move_locs k n)) /\
    (forall ts n, o_seq E C lv ts n -> o_seq E C lv (map (mv k) ts) (map (move_locs k) n)) /\
    (forall ts n, o_operand E C lv ts n -> o_operand E C lv (map (mv k) ts) (move_locs k n)) /\
    (forall ts n, o_operands E C lv ts n -> o_operands E C lv (map (mv k) ts) (map (move_locs k) n)) /\
    (forall ts n, o_content E C lv ts n -> o_content E C lv (map (mv k) ts) (move_locs k n)).
  Proof.
    apply (o_item_mutind E C lv (fun ts n => o_item E C lv (map (mv k) ts) (move_locs k n)) (fun ts n => o_seq E C lv (map (mv k) ts) (map (move_locs k) n))
      (fun ts n => o_operand E C lv (map (mv k) ts) (move_locs k n)) (fun ts n => o_operands E C lv (map (mv k) ts) (map (move_locs k) n)) (fun ts n => o_content E C lv (map (mv k) ts) (move_locs k n))); cbn [move_locs map].
    - intros tr tq v fl mn mx Hr Hq. cbn [move_locs]. rewrite <- !mv_span, map_app. apply ori_literal; [apply mv_regex; exact Hr|apply mv_quant; exact Hq].
    - intros l r tq mn mx Hl Hr Hq. rewrite <- !mv_span. cbn [map]. apply ori_wildcard; auto. apply mv_quant; exact Hq.
    - intros l te r tq n mn mx Hl Hn Hr Hq. rewrite <- !mv_span. cbn [map]. rewrite map_app. cbn [map]. apply ori_segment; auto; [apply lv_mv; exact Hn|apply mv_quant; exact Hq].
    - intros l te r tq n mn mx Hl _ IH Hr Hq. rewrite <- !mv_span. cbn [map]. rewrite map_app. cbn [map]. apply ori_group; auto. apply mv_quant; exact Hq.
    - intros. apply orq_one. assumption.
    - intros. rewrite map_app. apply orq_more; assumption.
    - intros. apply oro_segment; [assumption|]. rewrite mv_class. assumption.
    - intros ts ns _ IH Hno. rewrite <- mv_span. apply oro_seq; [exact IH|]. intros n Hn. destruct ns as [|x [|y ns]]; try discriminate. cbn in Hn. injection Hn as <-. rewrite mv_class. apply Hno. reflexivity.
    - intros. apply oros_one. assumption.
    - intros. rewrite map_app. cbn [map]. apply oros_more; assumption.
    - intros ts ns _ IH. rewrite <- mv_span. apply orc_seq. exact IH.
    - intros ts ns _ IH Hl. rewrite <- mv_span. apply orc_or; [exact IH|]. rewrite map_length. exact Hl.
  Qed.
  Lemma o_main_mv k ts n : o_main E C lv ts n -> o_main E C lv (map (mv k) ts) (move_locs k n).
  Proof.
    intros H. inversion H as [? ? Hi|? ns Hs Hl|? ns Hs Hl]; subst; cbn [move_locs]; rewrite <- ?mv_span.
    - apply orm_item. apply (proj1 (o_mv k)). exact Hi.
    - apply orm_seq; [apply (proj1 (proj2 (o_mv k))); exact Hs|rewrite map_length; exact Hl].
    - apply orm_or; [apply (proj1 (proj2 (proj2 (proj2 (o_mv k))))); exact Hs|rewrite map_length; exact Hl].
  Qed.
  Lemma o_query_mv k ts n : o_query E C lv ts n -> o_query E C lv (map (mv k) ts) (move_locs k n).
  Proof.
    intros H. inversion H as [? ? e Hm He|? ? w x sc e Hm Hw Hk Hsc He]; subst; rewrite map_app; cbn [map].
    - apply ory_plain; [apply o_main_mv; exact Hm|exact He].
    - cbn [move_locs map]. rewrite <- !mv_span, map_app. cbn [map]. apply (ory_within E C lv _ _ (mv k w) (mv k x) sc (mv k e)); auto. apply o_main_mv. exact Hm.
  Qed.
End Lv.
