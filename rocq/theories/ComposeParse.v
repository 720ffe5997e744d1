(** Parsing as a structure over tokens without line numbers; putting structures together and taking them apart. *)
From Coq Require Import String.
From Verif Require Import Base Regex LexRules Lexer Grammar Antlr Ast Builder Parser LexSpec LitSpec
  GramSpec GramFacts ValueSpec ValueFacts SpellSpec SpellComplete BuilderFacts BuilderRules ParseSpec ParseFacts LevelFacts SelFacts PrecFacts PrecConv EvFacts SimFacts
  TreeSpec TreeFacts SitFacts LevelSpec LevelThm QuerySpec QueryThm SubEv PropsParse PropsTree PropsPrec PropsQuery ReadSpec ReadFacts ReadQuery ReadParse ReadTop Outer Local ComposeSpec LexJoin Compose ComposeWalk.
Local Open Scope Z_scope.

Lemma move_loc0 l : option_map (move_loc 0) l = l.
Proof. destruct l as [[a b]|]; [|reflexivity]. cbn. unfold move_loc. cbn. f_equal. f_equal; lia. Qed.
Lemma move_locs0 n : move_locs 0 n = n.
Proof.
  induction n as [p l ch IH] using qnode_ind'. cbn [move_locs]. rewrite move_loc0. f_equal. rewrite <- (map_id ch) at 2. apply map_ext_in. rewrite Forall_forall in IH. exact IH.
Qed.
Definition e0 : token := mkTok EOF [] 0 0 0 0.

Section One.
  Variables (V : env) (P : qparser).
  Hypothesis HV : env_ok V.
  Hypothesis Hon : enableSourceLocations (qp_cfg P) = true.
  Notation E := (e_penv V). Notation C := (qp_cfg P).
  Notation L := (lv E C).
  Definition ints (ts : list token) : Prop := forall t, In t ts -> t_type t = INTEGER -> int_ok E (t_text t).
  Lemma o_query_eof ts e e' n : o_query E C L (ts ++ [e]) n -> is_tok EOF e' -> o_query E C L (ts ++ [e']) n.
  Proof.
    intros H He'. remember (ts ++ [e]) as l eqn:Hl. destruct H as [ts0 n e1 Hm He|ts0 n w k sc e1 Hm Hw Hk Hsc He].
    - apply app_inj_tail in Hl. destruct Hl as [-> _]. apply ory_plain; assumption.
    - change [w; k; e1] with ([w; k] ++ [e1]) in Hl. rewrite app_assoc in Hl. apply app_inj_tail in Hl. destruct Hl as [<- _]. rewrite <- app_assoc. apply ory_within; assumption.
  Qed.
  Lemma ints_mv k ts : ints (map (mv k) ts) <-> ints ts.
  Proof.
    unfold ints. split; intros H t Ht Hi.
    - apply (H (mv k t)); [apply in_map; exact Ht|exact Hi].
    - apply in_map_iff in Ht. destruct Ht as (x & <- & Hx). apply (H x Hx). exact Hi.
  Qed.
  Lemma ints_tokens q : ints (tokens q) <-> ints (nt q).
  Proof.
    unfold nt. rewrite ints_mv. unfold ints. rewrite tokens_split. split; intros H t Ht Hi; [apply H; auto; apply in_or_app; auto|].
    apply in_app_or in Ht. destruct Ht as [Ht|[<-|[]]]; [auto|discriminate].
  Qed.
  Lemma ints_app a b : ints (a ++ b) <-> ints a /\ ints b.
  Proof. unfold ints. split; [intros H; split; intros t Ht; apply H; apply in_or_app; auto|intros [H1 H2] t Ht; apply in_app_or in Ht; destruct Ht; auto]. Qed.
  Lemma ints_cons t b : ints (t :: b) <-> (t_type t = INTEGER -> int_ok E (t_text t)) /\ ints b.
  Proof. unfold ints. split; [intros H; split; [apply H; left; reflexivity|intros x Hx; apply H; right; exact Hx]|intros [H1 H2] x [<-|Hx]; auto]. Qed.
  Lemma parse_nt q n : parse V P q = Ok n <-> lex_errors q = [] /\ ints (nt q) /\ o_query E C L (nt q ++ [e0]) n.
  Proof.
    assert (F : forall m, o_query E C L (tokens q) m -> o_query E C L (nt q ++ [e0]) m).
    { intros m H. apply (o_query_mv E C 0) in H. rewrite move_locs0, tokens_split, map_app in H. eapply o_query_eof; [exact H|reflexivity]. }
    rewrite <- ints_tokens. split.
    - intros Hp. destruct (proj1 (parse_iff_o V P q n HV Hon) Hp) as (A & B & D). auto.
    - intros (A & B & D). assert (Hsp : sp_query E C (nt q ++ [e0]) n) by (eapply o_query_sound; [apply lv_sp|exact D]).
      assert (Hsp' : sp_query E C (nt q ++ [mv 0 (eof_token q)]) n) by (eapply o_query_sound; [apply lv_sp|eapply o_query_eof; [exact D|reflexivity]]).
      assert (Hst : map strip (nt q ++ [mv 0 (eof_token q)]) = map strip (tokens q)).
      { rewrite tokens_split, !map_app. unfold nt. rewrite map_map. reflexivity. }
      destruct (proj2 (C02_accepted_iff V P q HV)) as (n' & Hp).
      { split; [exact A|]. split.
        - apply conforms_strip. rewrite <- Hst. apply conforms_strip. eapply spelled_conforms. exact Hsp'.
        - apply texts_ok_conds, conds_strip. rewrite <- Hst. apply conds_strip, texts_ok_conds. eapply spelled_texts; [exact Hsp'|]. intros t Ht Hi. apply in_app_or in Ht. destruct Ht as [Ht|[<-|[]]]; [|discriminate]. apply ints_tokens in B. apply B; assumption. }
      pose proof (parse_o V P q n' HV Hon Hp) as D'. apply F in D'. replace n with n'; [exact Hp|].
      eapply (o_query_unique E C L); [apply lv_sp|apply lv_fun|exact D'|exact D].
  Qed.

  (** ** Putting together *)
  Lemma o_item_class ts n : o_item E C L ts n -> (q_class n = CQuerySegment \/ q_class n = CQueryGroup) /\ q_loc n = span ts.
  Proof. intros H. inversion H; subst; split; try reflexivity; cbn; auto. Qed.
  Lemma o_item_items ts n : o_item E C L ts n -> items_of n = [n].
  Proof. intros H. apply o_item_class in H. destruct H as [H _]. destruct n as [[] l ch]; try reflexivity. destruct H; discriminate. Qed.
  Lemma o_main_items ts n : o_main E C L ts n -> q_class n <> CQueryDisjunction -> o_seq E C L ts (items_of n) /\ q_loc n = span ts.
  Proof. clear HV Hon.
    intros H Hn. inversion H; subst; [|split; [assumption|reflexivity]|destruct (Hn eq_refl)].
    split; [|eapply o_item_class; eassumption]. rewrite (o_item_items ts n) by assumption. apply orq_one. assumption.
  Qed.
  Lemma o_main_loc ts n : o_main E C L ts n -> q_loc n = span ts.
  Proof. intros H. inversion H; subst; [eapply o_item_class; eassumption|reflexivity|reflexivity]. Qed.
  Lemma o_seq_app ts ns ts' ns' : o_seq E C L ts ns -> o_seq E C L ts' ns' -> o_seq E C L (ts ++ ts') (ns ++ ns').
  Proof. intros H H'. induction H as [ts n Hi|ts n t2 n2 Hi _ IH]; cbn [app]; [apply orq_more; assumption|rewrite <- app_assoc; apply orq_more; assumption]. Qed.
  Lemma o_operands_app ts ns k ts' ns' : o_operands E C L ts ns -> is_tok OR k -> o_operands E C L ts' ns' -> o_operands E C L (ts ++ k :: ts') (ns ++ ns').
  Proof. intros H Hk H'. induction H as [ts n Hi|ts n k0 t2 n2 Hi Hk0 _ IH]; cbn [app]; [apply oros_more; assumption|rewrite <- app_assoc; cbn [app]; apply oros_more; assumption]. Qed.
  Lemma o_main_operands ts n : o_main E C L ts n -> o_operands E C L ts (operands_of n).
  Proof. clear HV Hon.
    intros H. inversion H as [? ? Hi|? ns Hs Hl|? ns Hs Hl]; subst; [|apply oros_one; apply oro_seq; [exact Hs|intros x ->; cbn in Hl; lia]|exact Hs].
    destruct (o_item_class _ _ Hi) as [[Hc|Hc] Hl].
    - assert (operands_of n = [n]) as -> by (destruct n as [[] l ch]; try discriminate; reflexivity). apply oros_one, oro_segment; assumption.
    - assert (operands_of n = [QN PSequence (q_loc n) [n]]) as -> by (destruct n as [[] l ch]; try discriminate; reflexivity). rewrite Hl. apply oros_one, oro_seq; [apply orq_one; exact Hi|]. intros x Hx. injection Hx as <-. rewrite Hc. discriminate.
  Qed.
  Lemma o_main_content ts n : o_main E C L ts n -> o_content E C L ts (content_of n).
  Proof. clear HV Hon.
    intros H. inversion H as [? ? Hi|? ns Hs Hl|? ns Hs Hl]; subst; [|apply orc_seq; exact Hs|apply orc_or; assumption].
    destruct (o_item_class _ _ Hi) as [Hc Hl].
    assert (content_of n = QN PSequence (q_loc n) [n]) as -> by (destruct n as [[] l ch]; try (destruct Hc; discriminate); reflexivity). rewrite Hl. apply orc_seq, orq_one. exact Hi.
  Qed.
  Lemma o_main_no_within ts n : o_main E C L ts n -> q_class n <> CQueryWithWithin.
  Proof. intros H. inversion H as [? ? Hi| |]; subst; try discriminate. destruct (o_item_class _ _ Hi) as [[->| ->] _]; discriminate. Qed.
  Lemma o_plain ts n : o_query E C L (ts ++ [e0]) n -> q_class n <> CQueryWithWithin -> o_main E C L ts n.
  Proof. intros H Hc. remember (ts ++ [e0]) as l eqn:Hl. destruct H as [ts0 n e1 Hm He|ts0 n w k sc e1 Hm Hw Hk Hsc He]; [|destruct (Hc eq_refl)]. apply app_inj_tail in Hl. destruct Hl as [-> _]. exact Hm. Qed.
  Lemma o_item_ne ts n : o_item E C L ts n -> ts <> [].
  Proof. intros H. eapply (proj1 (item_ne E C)). eapply (proj1 (o_item_sound E C L (lv_sp E C))). exact H. Qed.
  Lemma o_seq_ne ts ns : o_seq E C L ts ns -> ts <> [] /\ ns <> [].
  Proof. intros H. inversion H as [? ? Hi|? ? ? ? Hi]; subst; apply o_item_ne in Hi; split; try discriminate; auto. intros He. apply app_eq_nil in He. destruct He; auto. Qed.
  Lemma o_main_ne ts n : o_main E C L ts n -> ts <> [].
  Proof. clear HV Hon.
    intros H. inversion H as [? ? Hi|? ns Hs Hl|? ns Hs Hl]; subst; [eapply o_item_ne; exact Hi|eapply o_seq_ne; exact Hs|].
    inversion Hs as [? ? Ho|? ? ? ? ? Ho]; subst; [cbn in Hl; lia|]. destruct ts0; discriminate.
  Qed.

  (** ** Taking apart *)
  Definition outer (m : qnode) : bool :=
    match q_class m with CQuerySegment | CQueryGroup | CQuerySequence | CQueryDisjunction => true | _ => false end.
  Lemma sp_expr_outer : (forall ts n, sp_expr E C ts n -> forall m, subnode m n -> outer m = false) /\
    (forall sep ts ns, sp_exprs E C sep ts ns -> forall n m, In n ns -> subnode m n -> outer m = false).
  Proof.
    apply (sp_expr_mutind E C (fun ts n => forall m, subnode m n -> outer m = false) (fun sep ts ns => forall n m, In n ns -> subnode m n -> outer m = false)).
    - intros ta o tr q i op v fl _ _ _ m Hm. inversion Hm as [|? ? ? c Hc]; subst; [reflexivity|destruct Hc].
    - intros l ts r n _ _ IH _ m Hm. inversion Hm as [|? ? ? c Hc Hm']; subst; [reflexivity|destruct Hc as [<-|[]]; auto].
    - intros k ts n _ _ IH m Hm. inversion Hm as [|? ? ? c Hc Hm']; subst; [reflexivity|destruct Hc as [<-|[]]; auto].
    - intros ts ns _ IH _ _ _ m Hm. inversion Hm as [|? ? ? c Hc Hm']; subst; [reflexivity|eauto].
    - intros ts ns _ IH _ _ m Hm. inversion Hm as [|? ? ? c Hc Hm']; subst; [reflexivity|eauto].
    - intros sep ts n _ IH n' m [<-|[]]. apply IH.
    - intros sep ts n k ts' ns _ IH _ _ IH' n' m [<-|Hn]; [apply IH|apply IH'; exact Hn].
  Qed.
  Definition piece (ts : list token) (m : qnode) : Prop :=
    exists pre te post, ts = pre ++ te ++ post /\ o_main E C L te (unwrapped m) /\ q_loc m = span te.
  Lemma piece_whole ts m : o_main E C L ts (unwrapped m) -> q_loc m = span ts -> piece ts m.
  Proof. exists [], ts, []. rewrite app_nil_r. auto. Qed.
  Lemma piece_l ts ts' m : piece ts m -> piece (ts ++ ts') m.
  Proof. intros (a & b & c & -> & H). exists a, b, (c ++ ts'). rewrite <- !app_assoc. auto. Qed.
  Lemma piece_r ts ts' m : piece ts' m -> piece (ts ++ ts') m.
  Proof. intros (a & b & c & -> & H). exists (ts ++ a), b, c. rewrite <- !app_assoc. auto. Qed.
  Lemma piece_tl k ts m : piece ts m -> piece (k :: ts) m.
  Proof. apply (piece_r [k]). Qed.
  Lemma unwrapped_item ts n : o_item E C L ts n -> unwrapped n = n.
  Proof. intros H. apply o_item_class in H. destruct H as [H _]. destruct n as [[] l ch]; try reflexivity. destruct H; discriminate. Qed.
  Lemma seq_main ts ns : o_seq E C L ts ns -> o_main E C L ts (unwrapped (QN PSequence (span ts) ns)).
  Proof. clear HV Hon.
    intros H. destruct ns as [|x [|y ns]]; [destruct (proj2 (o_seq_ne _ _ H)); reflexivity| |].
    - cbn. apply orm_item. inversion H as [? ? Hi|? ? ? ? ? Hx]; subst; [exact Hi|inversion Hx].
    - change (unwrapped _) with (QN PSequence (span ts) (x :: y :: ns)). apply orm_seq; [exact H|cbn; lia].
  Qed.
  Lemma o_sub :
    (forall ts n, o_item E C L ts n -> forall m, subnode m n -> outer m = true -> piece ts m) /\
    (forall ts ns, o_seq E C L ts ns -> forall n m, In n ns -> subnode m n -> outer m = true -> piece ts m) /\
    (forall ts n, o_operand E C L ts n -> forall m, subnode m n -> outer m = true -> piece ts m) /\
    (forall ts ns, o_operands E C L ts ns -> forall n m, In n ns -> subnode m n -> outer m = true -> piece ts m) /\
    (forall ts n, o_content E C L ts n -> forall m, subnode m n -> outer m = true -> piece ts m).
  Proof. clear HV Hon.
    apply (o_item_mutind E C L (fun ts n => forall m, subnode m n -> outer m = true -> piece ts m)
      (fun ts ns => forall n m, In n ns -> subnode m n -> outer m = true -> piece ts m)
      (fun ts n => forall m, subnode m n -> outer m = true -> piece ts m)
      (fun ts ns => forall n m, In n ns -> subnode m n -> outer m = true -> piece ts m)
      (fun ts n => forall m, subnode m n -> outer m = true -> piece ts m)).
    - intros tr tq v fl mn mx Hr Hq m Hm Ho. inversion Hm as [|? ? ? c Hc Hm']; subst; [apply piece_whole; [apply orm_item, ori_literal; assumption|reflexivity]|destruct Hc as [<-|[]]].
      inversion Hm' as [|? ? ? c Hc]; subst; [discriminate Ho|destruct Hc].
    - intros l r tq mn mx Hl Hr Hq m Hm Ho. inversion Hm as [|? ? ? c Hc Hm']; subst; [apply piece_whole; [apply orm_item, ori_wildcard; assumption|reflexivity]|destruct Hc as [<-|[]]].
      inversion Hm' as [|? ? ? c Hc]; subst; [discriminate Ho|destruct Hc].
    - intros l te r tq n mn mx Hl Hn Hr Hq m Hm Ho. inversion Hm as [|? ? ? c Hc Hm']; subst; [apply piece_whole; [apply orm_item, ori_segment; assumption|reflexivity]|destruct Hc as [<-|[]]].
      rewrite (proj1 sp_expr_outer _ _ (lv_sp _ _ _ _ Hn) _ Hm') in Ho. discriminate Ho.
    - intros l tc r tq n mn mx Hl Hn IH Hr Hq m Hm Ho. inversion Hm as [|? ? ? c Hc Hm']; subst; [apply piece_whole; [apply orm_item, ori_group; assumption|reflexivity]|destruct Hc as [<-|[]]].
      apply piece_tl, piece_l. auto.
    - intros ts n _ IH n' m [<-|[]]. apply IH.
    - intros ts n ts' ns _ IH _ IH' n' m [<-|Hn] Hm Ho; [apply piece_l; auto|apply piece_r; eauto].
    - intros ts n _ IH _. exact IH.
    - intros ts ns Hs IH _ m Hm Ho. inversion Hm as [|? ? ? c Hc Hm']; subst; [apply piece_whole; [apply seq_main; exact Hs|reflexivity]|eauto].
    - intros ts n _ IH n' m [<-|[]]. apply IH.
    - intros ts n k ts' ns _ IH _ _ IH' n' m [<-|Hn] Hm Ho; [apply piece_l; auto|apply piece_r, piece_tl; eauto].
    - intros ts ns Hs IH m Hm Ho. inversion Hm as [|? ? ? c Hc Hm']; subst; [apply piece_whole; [apply seq_main; exact Hs|reflexivity]|eauto].
    - intros ts ns Hs IH Hl m Hm Ho. inversion Hm as [|? ? ? c Hc Hm']; subst; [apply piece_whole; [apply orm_or; assumption|reflexivity]|eauto].
  Qed.
  Lemma o_main_sub ts n m : o_main E C L ts n -> subnode m n -> outer m = true -> piece ts m.
  Proof. clear HV Hon.
    intros H Hm Ho. inversion H as [? ? Hi|? ns Hs Hl|? ns Hs Hl]; subst.
    - eapply (proj1 o_sub); eassumption.
    - inversion Hm as [|? ? ? c Hc Hm']; subst; [apply piece_whole; [apply seq_main; exact Hs|reflexivity]|eapply (proj1 (proj2 o_sub)); eassumption].
    - inversion Hm as [|? ? ? c Hc Hm']; subst; [apply piece_whole; [apply orm_or; assumption|reflexivity]|eapply (proj1 (proj2 (proj2 (proj2 o_sub)))); eassumption].
  Qed.
End One.
