(** What the parser returns, as a structure over context-independent levels. *)
From Coq Require Import String.
From Verif Require Import Base Regex LexRules Lexer Grammar Antlr Ast Builder Parser LexSpec LitSpec
  GramSpec GramFacts ValueSpec ValueFacts SpellSpec BuilderFacts BuilderRules ParseSpec ParseFacts LevelFacts SelFacts PrecFacts PrecConv EvFacts SimFacts
  TreeSpec TreeFacts SitFacts LevelSpec LevelThm QuerySpec QueryThm SubEv PropsParse PropsTree PropsPrec PropsQuery ReadSpec ReadFacts ReadQuery ReadParse ReadTop Outer Local ComposeSpec LexJoin Compose.
Local Open Scope Z_scope.

Section On.
  Variables (V : env) (P : qparser) (q : pystr) (n : qnode).
  Hypothesis HV : env_ok V.
  Hypothesis Hon : enableSourceLocations (qp_cfg P) = true.
  Hypothesis Hp : parse V P q = Ok n.
  Notation E := (e_penv V). Notation C := (qp_cfg P). Notation toks := (lx_tokens (lexemes q)).
  Notation lv := (lv E C).

  Lemma on_level pre l te r tq post c mn mx : subnode (QN (PSegment mn mx) (span (l :: te ++ r :: tq)) [c]) n ->
    toks = pre ++ (l :: te ++ r :: tq) ++ post -> is_tok L_SQUARE_BRACKET l -> is_tok R_SQUARE_BRACKET r -> sp_expr E C te c -> lv te c.
  Proof.
    set (m := QN _ _ _). intros Hm Ht Hl Hr Hsp. destruct (parse_sub V P q n m HV Hp Hm) as (ru & ch & m0 & K & pre' & ts & rest & Hm0 & Hev & Hmk & (tr & Htr & Hsub) & Hts & Hsel & HKv & HKo).
    rewrite Hon in Hm0. cbn [with_locs] in Hm0. subst m0.
    assert (ru = query_simple) as -> by (unfold m in Hmk; destruct ru; try discriminate Hmk; reflexivity).
    assert (Hso : sound E (Node query_simple ch) /\ ts = leaves (Node query_simple ch) ++ rest).
    { pose proof (sel_drv _ _ _ _ _ Hsel) as Hd. pose proof (sel_eq _ _ _ _ _ Hsel) as He. cbn [flat_map] in He. rewrite app_nil_r in He. split; [|exact He]. subst ts.
      pose proof (tok_ok_sub q _ _ Hts) as Hk. apply Forall_app in Hk. pose proof (conds_sub V P q n _ _ HV Hp Hts) as Hcd. apply conds_weaken_app in Hcd.
      split; [exists query_simple; exact Hd|]. split; [apply Hk|apply Hcd]. }
    destruct Hso as [Hso Hts2].
    destruct (ev_item E C query_simple ch Hso ltac:(auto)) as (n' & Hn' & Hi & _). rewrite Hev in Hn'. injection Hn' as <-.
    assert (Hlv : leaves (Node query_simple ch) = l :: te ++ r :: tq).
    { destruct (item_last _ _ _ _ Hi) as (a & p & Ha & Hpe).
      destruct (drop_eof q pre' a p rest) as (post' & Hpost); [rewrite Hts, Hts2, Ha, <- app_assoc; reflexivity|intros He; rewrite He in Hpe; cbn in Hpe; intuition discriminate|].
      eapply span_piece with (pre := pre') (post := post') (pre' := pre) (post' := post); [rewrite Ha, <- app_assoc; exact Hpost|exact Ht|rewrite Ha; intros Hx; apply app_eq_nil in Hx; destruct Hx; discriminate|discriminate|].
      rewrite <- (stands_loc E C _ _ (st_item _ _ _ _ Hi)). reflexivity. }
    rewrite Hlv in Hts2. clear Hi.
    destruct (sound_children _ _ _ Hso) as [_ Hch].
    apply sel_nt in Hsel. destruct Hsel as (ch' & Heq & Hsel). injection Heq as <-. cbn [body] in Hsel.
    apply sel_sq in Hsel. destruct Hsel as (x & y & r1 & -> & H1 & H2).
    assert (HK1 : viable (Op (NT quantifier) :: K) (types r1)) by (eapply selects_viable; eassumption).
    assert (Hy : evs E C y = Some []).
    { pose proof (sel_drv _ _ _ _ _ H2) as Hd. inversion Hd as [| | | | |?|? ? Hd'| | |]; subst; [reflexivity|]. destruct (one_node _ _ Hd') as (cq & ->). reflexivity. }
    rewrite ev_eq in Hev. cbn [ev_node] in Hev.
    assert (Hevx : exists t, x = [t] /\ ev E C t = Some c).
    { assert (Hq : exists t, x = [t] /\ (exists r' ch', t = Node r' ch' /\ valueless r' = false)).
      { pose proof (sel_drv _ _ _ _ _ H1) as Hd. inversion Hd as [| | |? ? ? Hd'|? ? ? Hd'| | | | |]; subst; destruct (one_node _ _ Hd') as (cq & ->); eexists; split; try reflexivity; eauto. }
      destruct Hq as (t & -> & r' & ch' & -> & Hv). exists (Node r' ch'). split; [reflexivity|].
      change (evs E C ([Node r' ch'] ++ y)) with (if valueless r' then evs E C y else match ev E C (Node r' ch'), evs E C y with Some n, Some ns => Some (n :: ns) | _, _ => None end) in Hev.
      rewrite Hv, Hy in Hev. destruct (ev E C (Node r' ch')) as [c0'|]; [|discriminate]. destruct (repetition _ _) as [[mn' mx']|]; [|discriminate]. injection Hev as _ _ _ Hc. congruence. }
    destruct Hevx as (t & -> & Hevt). rewrite Hts2 in H1. apply sel_al in H1. destruct H1 as [H1|[_ H1]]; apply sel_nt in H1; destruct H1 as (chs & Heq & Hsel); injection Heq as ->.
    { exfalso. cbn [body] in Hsel. pose proof (sel_drv _ _ _ _ _ Hsel) as Hd. pose proof (sel_eq _ _ _ _ _ Hsel) as He.
      apply sel_nt in Hsel. destruct Hsel as (c1 & -> & Hsel). cbn [body] in Hsel. apply sel_sq in Hsel. destruct Hsel as (x & y2 & r2 & -> & H1 & H3).
      apply sel_nt in H1. destruct H1 as (c2 & -> & H1). cbn [body] in H1. apply sel_tk in H1. destruct H1 as (k & -> & Hk & [Hk2|[]]). injection Hk as <- _. unfold is_tok in Hl. congruence. }
    cbn [body] in Hsel. apply sel_sq in Hsel. destruct Hsel as (x & y2 & r2 & -> & H1 & H3). apply sel_tk in H1. destruct H1 as (l' & -> & Hl2 & [Hl'|[]]). injection Hl2 as <- <-.
    apply sel_sq in H3. destruct H3 as (x3 & y3 & r3 & -> & H3 & H4). apply sel_tk in H4. destruct H4 as (kc & -> & -> & [Hk|[]]).
    inversion H3 as [| | | | |? ? ? ? ? _ H5|? ? ? Hno| | |]; subst.
    + apply sel_nt in H5. destruct H5 as (che & -> & H5). cbn [body] in H5. destruct (op_E5 _ (sel_drv _ _ _ _ _ H5)) as (t & -> & Hop).
      pose proof (sel_eq _ _ _ _ _ H5) as E2. cbn in E2. rewrite app_nil_r in E2.
      rewrite ev_eq in Hevt. cbn [ev_node app List.length Nat.eqb] in Hevt.
      change (evs E C [Leaf l; Node expression [t]; Leaf kc]) with (match ev E C (Node expression [t]) with Some n => Some [n] | _ => None end) in Hevt.
      rewrite ev_eq in Hevt. cbn [ev_node] in Hevt. rewrite evs_op in Hevt by exact Hop. destruct (ev _ _ t) as [c0'|] eqn:Hc; [|discriminate]. cbn [evs] in Hevt. injection Hevt as ->.
      assert (Hbt : balanced (types (leaves t))).
      { pose proof (derives_run _ _ (sel_drv _ _ _ _ _ H5) 0 0 eq_refl 0 ltac:(lia)) as Hd. unfold balanced. cbn [ttypes flat_map] in Hd. unfold ttypes in Hd. cbn [flat_map] in Hd. rewrite app_nil_r in Hd. exact Hd. }
      assert (te = leaves t /\ r = kc /\ tq ++ rest = r1) as (-> & <- & <-).
      { destruct (bracket_split l te r (tq ++ rest) l (leaves t) kc r1) as (_ & A & B & D); [rewrite <- E2; cbn; f_equal; rewrite <- app_assoc; reflexivity|eapply (proj1 (expr_balanced E C)); exact Hsp|exact Hbt|rewrite Hr; reflexivity|rewrite <- Hk; reflexivity|]. auto. }
      rewrite E2 in H5. eapply lv_of; [exact Hsp|exact H5|exact Hr|reflexivity|exact HK1|exact Hc].
    + exfalso. rewrite ev_eq in Hevt. cbn in Hevt. injection Hevt as <-. inversion Hsp.
  Qed.

  Lemma parts_join_ts : forall k ts, (List.length ts <= k)%nat -> forall d p ps, parts_at OR d ts = p :: ps ->
    (ps = [] /\ p = ts) \/ exists k0 ts', ts = p ++ k0 :: ts' /\ is_tok OR k0 /\ parts OR ts' = ps.
  Proof.
    intros k. induction k as [|k IH]; intros ts Hlen d p ps H.
    - destruct ts; [|cbn in Hlen; lia]. cbn in H. injection H as <- <-. auto.
    - destruct ts as [|t r]; [cbn in H; injection H as <- <-; auto|]. cbn [parts_at] in H. destruct ((d =? 0)%nat && ttype_eqb OR (t_type t))%bool eqn:Ho.
      + injection H as <- <-. right. exists t, r. split; [reflexivity|]. split; [|reflexivity]. apply andb_true_iff in Ho. destruct Ho as [_ Ho]. unfold is_tok. destruct (t_type t); try discriminate Ho; reflexivity.
      + destruct (parts_at OR (depth_after d t) r) as [|p' ps'] eqn:Hr; [exfalso; eapply parts_ne; exact Hr|]. injection H as <- <-. cbn in Hlen.
        destruct (IH r ltac:(lia) _ _ _ Hr) as [[-> ->]|(k0 & ts' & -> & Hk & Hps)]; [auto|]. right. exists k0, ts'. auto.
  Qed.
  Notation at_ := (at_ toks).
  Notation o_item := (o_item E C lv). Notation o_seq := (o_seq E C lv). Notation o_operand := (o_operand E C lv).
  Notation o_operands := (o_operands E C lv). Notation o_content := (o_content E C lv).
  Section Step.
    Variable k : nat.
    Hypothesis IHk : forall ts b, (List.length ts <= k)%nat -> sp_item E C ts b -> subnode b n -> at_ ts -> o_item ts b.
    Lemma step_seq ts ns : sp_seq E C ts ns -> (List.length ts <= k)%nat -> (forall x, In x ns -> subnode x n) -> at_ ts -> o_seq ts ns.
    Proof.
      induction 1 as [ts b Hb|ts b ts' ns Hb _ IH]; intros Hl Hsub Hat.
      - apply orq_one. apply IHk; auto. apply Hsub. left. reflexivity.
      - rewrite app_length in Hl. apply orq_more.
        + apply IHk; [lia|exact Hb|apply Hsub; left; reflexivity|eapply at_l; exact Hat].
        + apply IH; [lia|intros; apply Hsub; right; assumption|eapply at_r; exact Hat].
    Qed.
    Lemma step_operand ts b : canon_operand E C ts b -> (List.length ts <= k)%nat -> subnode b n -> at_ ts -> o_operand ts b.
    Proof.
      intros (ns & Hs & ->) Hl Hsub Hat.
      assert (Hcases : (exists b, ns = [b] /\ q_class b = CQuerySegment /\ operand_of ts ns = b) \/ (operand_of ts ns = QN PSequence (span ts) ns /\ forall x, ns = [x] -> q_class x <> CQuerySegment)).
      { destruct ns as [|[p l ch] [|b' bs]]; [right; split; [reflexivity|discriminate]| |right; split; [cbn; destruct p; reflexivity|discriminate]].
        destruct p; try (right; split; [reflexivity|]; intros x Hx; injection Hx as <-; discriminate). left. eexists. split; [reflexivity|]. split; reflexivity. }
      destruct Hcases as [(b & -> & Hc & He)|[He Hno]]; rewrite He in *.
      - apply oro_segment; [|exact Hc]. inversion Hs as [? ? Hb|? ? ? ? ? Hx]; subst; [|inversion Hx]. apply IHk; auto.
      - apply oro_seq; [|exact Hno]. apply step_seq; auto. intros x Hx. eapply sub_of_child; [exact Hsub|exact Hx].
    Qed.
    Lemma step_operands ps ns : Forall2 (canon_operand E C) ps ns -> forall ts, parts OR ts = ps -> (List.length ts <= k)%nat -> (forall x, In x ns -> subnode x n) -> at_ ts -> o_operands ts ns.
    Proof.
      induction 1 as [|p b ps ns Hb Hf IH]; intros ts Hps Hl Hsub Hat; [exfalso; eapply parts_ne; exact Hps|].
      destruct (parts_join_ts _ ts (le_n _) 0%nat p ps Hps) as [[-> ->]|(k0 & ts' & -> & Hk0 & Hps')].
      - inversion Hf; subst. apply oros_one. apply step_operand; auto. apply Hsub. left. reflexivity.
      - rewrite app_length in Hl. cbn [List.length] in Hl. apply oros_more; [|exact Hk0|].
        + apply step_operand; [exact Hb|lia|apply Hsub; left; reflexivity|eapply at_l; exact Hat].
        + apply IH; [exact Hps'|lia|intros; apply Hsub; right; assumption|eapply at_tl, at_r; exact Hat].
    Qed.
    Lemma step_content ts b : canon_content E C ts b -> (List.length ts <= k)%nat -> subnode b n -> at_ ts -> o_content ts b.
    Proof.
      intros Hc Hl Hsub Hat. unfold canon_content in Hc.
      destruct (parts OR ts) as [|p [|p' ps]] eqn:Hps; [exfalso; eapply parts_ne; exact Hps| |]; destruct Hc as (ns & Hs & ->).
      - apply orc_seq. apply step_seq; auto. intros x Hx. eapply sub_of_child; [exact Hsub|exact Hx].
      - apply orc_or; [|apply Forall2_length in Hs; cbn in Hs; lia]. eapply step_operands; [exact Hs|exact Hps|exact Hl| |exact Hat]. intros x Hx. eapply sub_of_child; [exact Hsub|exact Hx].
    Qed.
  End Step.
  Lemma walk_items : forall k ts b, (List.length ts <= k)%nat -> sp_item E C ts b -> subnode b n -> at_ ts -> o_item ts b.
  Proof.
    induction k as [|k IH]; intros ts b Hl Hb Hsub Hat.
    { exfalso. destruct ts; [|cbn in Hl; lia]. eapply (proj1 (item_ne E C)); [exact Hb|reflexivity]. }
    inversion Hb as [tr tq v fl mn mx Hr Hq|l r tq mn mx Hl' Hr Hq|l te r tq c mn mx Hl' Hn Hr Hq|l tc r tq c mn mx Hl' Hn Hr Hq]; subst.
    - apply ori_literal; assumption.
    - apply ori_wildcard; assumption.
    - apply ori_segment; auto. destruct Hat as (pre & post & Ht). eapply on_level; eassumption.
    - apply ori_group; auto. cbn [List.length] in Hl. rewrite app_length in Hl. cbn [List.length] in Hl.
      assert (Hat' : at_ tc) by (apply at_tl in Hat; eapply at_l; exact Hat).
      eapply (step_content k IH); [|lia|eapply sub_of_child; [exact Hsub|left; reflexivity]|exact Hat'].
      destruct Hat' as (pre & post & Ht). eapply (on_groups V P q n HV Hon Hp); [exact Hsub|reflexivity|reflexivity|exact Ht|exact Hn].
  Qed.
  Lemma walk_main_o ts b : canon_main E C ts b -> subnode b n -> at_ ts -> o_main E C lv ts b.
  Proof.
    intros Hc Hsub Hat. unfold canon_main in Hc.
    destruct (parts OR ts) as [|p [|p' ps]] eqn:Hps; [exfalso; eapply parts_ne; exact Hps| |]; destruct Hc as (ns & Hs & Hb).
    - assert (Hcases : (exists x, ns = [x] /\ b = x) \/ (2 <= List.length ns)%nat /\ b = QN PSequence (span ts) ns).
      { destruct ns as [|x [|y l]]; [inversion Hs|left; eauto|right; split; [cbn; lia|exact Hb]]. }
      destruct Hcases as [(x & -> & ->)|[Hl2 ->]].
      + apply orm_item. inversion Hs as [? ? Hx|? ? ? ? ? Hx]; subst; [|inversion Hx]. eapply (walk_items _ _ _ (le_n _)); eassumption.
      + apply orm_seq; [|exact Hl2]. eapply (step_seq _ (walk_items _)); [exact Hs|apply le_n| |exact Hat]. intros x Hx. eapply sub_of_child; [exact Hsub|exact Hx].
    - subst b. apply orm_or; [|apply Forall2_length in Hs; cbn in Hs; lia]. eapply (step_operands _ (walk_items _)); [exact Hs|exact Hps|apply le_n| |exact Hat]. intros x Hx. eapply sub_of_child; [exact Hsub|exact Hx].
  Qed.
  Lemma parse_o : o_query E C lv (tokens q) n.
  Proof.
    destruct (C16_query V P q n HV Hp) as (ts & n0 & Hcan & Hcases). rewrite Hon in Hcases. cbn [with_locs] in Hcases. rewrite tokens_split.
    destruct Hcases as [[Ht Hn]|(w & x & sc & Ht & Hw & Hk & Hsc & Hn)].
    - rewrite Ht. apply ory_plain; [|reflexivity]. apply walk_main_o; [rewrite Hn; exact Hcan|apply sub_here|]. exists [], []. rewrite app_nil_r. exact Ht.
    - rewrite Hn, Ht, <- app_assoc. apply ory_within; auto; [|reflexivity]. apply walk_main_o; [exact Hcan| |exists [], [w; x]; exact Ht]. rewrite Hn. eapply sub_child; [left; reflexivity|apply sub_here].
  Qed.
End On.
(** Acceptance and result in terms of tokens. *)
Lemma parse_iff_o V P q n : env_ok V -> enableSourceLocations (qp_cfg P) = true ->
  (parse V P q = Ok n <-> lex_errors q = [] /\ (forall t, In t (tokens q) -> t_type t = INTEGER -> int_ok (e_penv V) (t_text t)) /\ o_query (e_penv V) (qp_cfg P) (lv (e_penv V) (qp_cfg P)) (tokens q) n).
Proof.
  intros HV Hon. split.
  - intros Hp. destruct (proj1 (C02_meaningful_iff V P q HV) (ex_intro _ n Hp)) as (A & _ & B). split; [exact A|]. split; [exact B|]. eapply parse_o; eassumption.
  - intros (A & B & D). destruct (proj2 (C02_meaningful_iff V P q HV)) as (n' & Hp).
    { split; [exact A|]. split; [|exact B]. exists n. eapply o_query_sound; [apply lv_sp|exact D]. }
    pose proof (parse_o V P q n' HV Hon Hp) as D'. replace n with n'; [exact Hp|].
    eapply (o_query_unique (e_penv V) (qp_cfg P) (lv (e_penv V) (qp_cfg P))); [apply lv_sp|apply lv_fun|exact D'|exact D].
Qed.
