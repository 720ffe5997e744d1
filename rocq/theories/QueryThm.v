(** The query level: what prediction selects outside brackets. *)
From Coq Require Import String.
From Verif Require Import Base Regex LexRules Lexer Grammar Antlr Ast Builder Parser LexSpec LitSpec LexThms
  GramSpec GramFacts ValueSpec ValueFacts SpellSpec BuilderFacts BuilderRules ParseSpec ParseFacts SimFacts LevelFacts SelFacts PrecFacts PrecConv EvFacts
  TreeSpec TreeFacts SitFacts LevelSpec LevelThm SubEv QuerySpec.
Local Open Scope Z_scope.

Lemma nt_clean r ch : derives (NT r) [Node r ch] -> In r [query_simple; query_group; query_sequence] -> clean OR (leaves (Node r ch)).
Proof.
  intros Hd Hr. assert (Hv : viable [NT r] (types (leaves (Node r ch)))).
  { apply viable_one. exists [Node r ch]. split; [exact Hd|]. unfold ttypes. cbn. rewrite app_nil_r. reflexivity. }
  assert (Hf : flat (NT r)) by reflexivity. split.
  - eapply viable_balanced; [exact Hv|]. constructor; [exact Hf|constructor].
  - rewrite (viable_nob _ _ Hv Hf); [intros []| |]; destruct Hr as [<-|[<-|[<-|[]]]]; reflexivity.
Qed.

Section QNodes.
  Variables (E : penv) (C : pcfg).
  Notation sound := (sound E).
  Notation sound_child := (sound_child E).

  Lemma ev_query_rule r ch : sound (Node r ch) -> valueless r = false ->
    exists n, ev E C (Node r ch) = Some n /\ yields E C (Node r ch) n /\ spec E C r (Node r ch).
  Proof.
    intros ((r' & Hr) & Hk & Hc) Hv. inversion Hr as [|? ? Hd| | | | | | | |]; subst.
    assert (Hk' : Forall tok_ok (flat_map leaves [Node r ch])) by (cbn; rewrite app_nil_r; exact Hk).
    pose proof (derives_ev E C _ _ Hr Hk') as Hev. pose proof (derives_spec E C _ _ Hr Hk') as Hsp. inversion Hev as [|? ? He _]; subst. inversion Hsp as [|? ? Hs _]; subst.
    cbn [child_ev child_spec] in He, Hs. rewrite Hv in He. destruct (He Hc) as (n & Hn & Hy). eauto.
  Qed.
  Lemma ev_item r ch : sound (Node r ch) -> r = query_simple \/ r = query_group ->
    exists n, ev E C (Node r ch) = Some n /\ sp_item E C (leaves (Node r ch)) n /\
      (r = query_simple -> exists mn mx l c, n = QN (PSegment mn mx) l c) /\ (r = query_group -> exists mn mx l c, n = QN (PQGroup mn mx) l c).
  Proof.
    intros Hso Hr. destruct (ev_query_rule r ch Hso) as (n & Hn & Hy & Hs); [destruct Hr; subst; reflexivity|]. exists n. split; [exact Hn|].
    assert (Hc : conds E (leaves (Node r ch))) by apply Hso. split.
    - destruct Hr; subst; cbn [spec] in Hs; destruct Hs as [_ [(m & Hm & _ & Hy')|[Hno _]]]; try contradiction; rewrite (yields_det _ _ _ _ _ Hy Hy'); exact Hm.
    - rewrite ev_eq in Hn. split; intros ->; cbn [ev_node] in Hn; destruct (evs E C ch) as [[|q0 [|? ?]]|]; try discriminate Hn;
        destruct (repetition E ch) as [[mn mx]|]; try discriminate Hn; injection Hn as <-; eauto.
  Qed.
  Lemma ev_seq ch : sound (Node query_sequence ch) ->
    exists ns, ev E C (Node query_sequence ch) = Some (QN PSequence (span (leaves (Node query_sequence ch))) ns) /\
      sp_seq E C (leaves (Node query_sequence ch)) ns /\ evs E C ch = Some ns.
  Proof.
    intros Hso. destruct (ev_query_rule query_sequence ch Hso eq_refl) as (n & Hn & Hy & Hs). assert (Hc : conds E (leaves (Node query_sequence ch))) by apply Hso.
    cbn [spec] in Hs. destruct Hs as [_ [(m & (ns & -> & Hm) & _ & Hy')|[Hno _]]]; [|contradiction]. exists ns.
    rewrite (yields_det _ _ _ _ _ Hy Hy') in Hn. split; [exact Hn|]. split; [exact Hm|].
    rewrite ev_eq in Hn. cbn [ev_node] in Hn. destruct (evs E C ch) as [ns'|]; [|discriminate]. cbn [option_map] in Hn. congruence.
  Qed.

  (** One-element sequences are viable as their element. *)
  Lemma item_seq r K w : r = query_simple \/ r = query_group -> viable K w -> forall w0, viable [NT r] w0 -> viable (NT query_sequence :: K) (w0 ++ w).
  Proof.
    intros Hr HK w0 H0. apply viable_cons; [|exact HK]. apply vnt. cbn [body]. rewrite <- (app_nil_r w0). apply vpl; [|apply vst0].
    apply valt. destruct Hr; subst; auto.
  Qed.
  (** The operands that prediction selects. *)
  Notation OPD := (NT query_simple \/? NT query_sequence \/? NT query_group).
  Lemma operand_sel K s x r : selects OPD K s x r -> viable K (types r) ->
    exists t, x = [t] /\ ((exists ch, t = Node query_simple ch) \/
      (exists ch, t = Node query_sequence ch /\ ~ (exists ch', ch = [Node query_simple ch']))).
  Proof.
    intros Hs HK. pose proof (sel_eq _ _ _ _ _ Hs) as Heq. apply sel_al in Hs. destruct Hs as [Hs|[Hn1 Hs]].
    - apply sel_nt in Hs. destruct Hs as (ch & -> & _). eexists. split; [reflexivity|]. left. eauto.
    - apply sel_al in Hs. destruct Hs as [Hs|[Hn2 Hs]].
      + pose proof (sel_drv _ _ _ _ _ Hs) as Hd. apply sel_nt in Hs. destruct Hs as (ch & -> & Hs). eexists. split; [reflexivity|]. right. exists ch. split; [reflexivity|].
        intros (ch' & ->). apply Hn1. subst s. cbn [flat_map app]. rewrite app_nil_r, map_app. apply viable_cons; [|exact HK].
        apply viable_one. exists [Node query_simple ch']. split.
        * inversion Hd as [|? ? Hb| | | | | | | |]; subst. pose proof (derives_rooted _ _ Hb) as HF. inversion HF as [|? ? H0r _]; subst. destruct H0r as (r0 & H0). inversion H0; subst. exact H0.
        * unfold ttypes. cbn. rewrite app_nil_r. reflexivity.
      + exfalso. apply Hn2. pose proof (sel_drv _ _ _ _ _ Hs) as Hd. apply sel_nt in Hs. destruct Hs as (ch & -> & Hs). subst s. cbn [flat_map]. rewrite app_nil_r, map_app.
        apply (item_seq query_group); [auto|exact HK|]. apply viable_one. exists [Node query_group ch]. split; [exact Hd|]. unfold ttypes. cbn. rewrite app_nil_r. reflexivity.
  Qed.
  Lemma operand_canon K s x r : selects OPD K s x r -> viable K (types r) -> Forall sound_child x ->
    exists t n, x = [t] /\ ev E C t = Some n /\ canon_operand E C (leaves t) n /\ clean OR (leaves t) /\ (forall l, evs E C (t :: l) = match evs E C l with Some ns => Some (n :: ns) | None => None end).
  Proof.
    intros Hs HK Hso. destruct (operand_sel K s x r Hs HK) as (t & -> & Ht). exists t. inversion Hso as [|? ? Hst _]; subst.
    pose proof (derives_rooted _ _ (sel_drv _ _ _ _ _ Hs)) as HF. inversion HF as [|? ? Hroot _]; subst.
    destruct Ht as [(ch & ->)|(ch & -> & Hne)].
    - destruct (ev_item query_simple ch Hst ltac:(auto)) as (n & Hn & Hi & (mn & mx & l & c & ->) & _); [reflexivity|].
      eexists. split; [reflexivity|]. split; [exact Hn|]. split; [|split].
      + eexists [_]. split; [apply sq_one; exact Hi|reflexivity].
      + destruct Hroot as (r0 & H0). inversion H0; subst. apply nt_clean; [exact H0|cbn; tauto].
      + intros l0. change (evs E C (Node query_simple ch :: l0)) with (match ev E C (Node query_simple ch), evs E C l0 with Some n, Some ns => Some (n :: ns) | _, _ => None end). rewrite Hn. reflexivity.
    - destruct (ev_seq ch Hst) as (ns & Hn & Hq & He). eexists. split; [reflexivity|]. split; [exact Hn|]. split; [|split].
      + exists ns. split; [exact Hq|]. destruct (sound_children _ _ _ Hst) as [Hb Hch].
        destruct ns as [|[p l c] [|? ?]]; [reflexivity| |destruct p; reflexivity]. destruct p; try reflexivity. exfalso.
        apply Hne. cbn [body] in Hb. inversion Hb as [| | | | | | |? a b Ha Hb'| |]; subst.
        assert (Hitem : forall a, derives (Al (NT query_simple) (NT query_group)) a -> exists r ch, a = [Node r ch] /\ (r = query_simple \/ r = query_group)).
        { intros a0 H0. inversion H0 as [| | |? ? ? H1|? ? ? H1| | | | |]; subst; destruct (one_node _ _ H1) as (c0 & ->); eauto. }
        destruct (Hitem _ Ha) as (r0 & c0 & -> & Hr0). inversion Hch as [|? ? Hs0 Hsb]; subst.
        destruct (ev_item r0 c0 Hs0 Hr0) as (n0 & Hn0 & _ & Hseg & Hgrp).
        assert (He' : exists nb, evs E C b = Some nb /\ [QN (PSegment min_occurs max_occurs) l c] = n0 :: nb).
        { cbn [app] in He. change (evs E C (Node r0 c0 :: b)) with (if valueless r0 then evs E C b else match ev E C (Node r0 c0), evs E C b with Some n, Some ns => Some (n :: ns) | _, _ => None end) in He.
          destruct Hr0; subst r0; cbn [valueless] in He; rewrite Hn0 in He; destruct (evs E C b) as [nb|]; try discriminate He; injection He as He; exists nb; (split; [reflexivity|]); congruence. }
        destruct He' as (nb & Hb0 & Heq). injection Heq as <- <-.
        assert (r0 = query_simple) as -> by (destruct Hr0 as [|Hr0]; [assumption|]; destruct (Hgrp Hr0) as (? & ? & ? & ? & Hx); discriminate Hx).
        inversion Hb' as [| | | | | | | |?|? y z Hy Hz]; subst; [exists c0; reflexivity|]. exfalso.
        destruct (Hitem _ Hy) as (r1 & c1 & -> & Hr1). cbn [app] in Hsb. inversion Hsb as [|? ? Hs1 _]; subst. destruct (ev_item r1 c1 Hs1 Hr1) as (n1 & Hn1 & _).
        cbn [app] in Hb0. change (evs E C (Node r1 c1 :: z)) with (if valueless r1 then evs E C z else match ev E C (Node r1 c1), evs E C z with Some n, Some ns => Some (n :: ns) | _, _ => None end) in Hb0.
        destruct Hr1; subst r1; cbn [valueless] in Hb0; rewrite Hn1 in Hb0; destruct (evs E C z); discriminate Hb0.
      + destruct Hroot as (r0 & H0). inversion H0; subst. apply nt_clean; [exact H0|cbn; tauto].
      + intros l0. change (evs E C (Node query_sequence ch :: l0)) with (match ev E C (Node query_sequence ch), evs E C l0 with Some n, Some ns => Some (n :: ns) | _, _ => None end). rewrite Hn. reflexivity.
  Qed.

  Notation ORL := (Tk [OR] ;; OPD).
  Lemma alts_sel m : forall K s x r, (List.length s <= m)%nat -> selects (St ORL) K s x r -> viable K (types r) -> Forall sound_child x ->
    exists ns ps, evs E C x = Some ns /\ Forall2 (canon_operand E C) ps ns /\
      (x = [] /\ ps = [] \/ exists k y, flat_map leaves x = k :: y /\ t_type k = OR /\ parts OR y = ps).
  Proof.
    induction m as [|m IH]; intros K s x r Hm Hs HK Hso; apply sel_st in Hs; destruct Hs as [[-> ->]|Hs].
    - exists [], []. split; [reflexivity|]. split; [constructor|]. left. auto.
    - exfalso. apply sel_sq in Hs. destruct Hs as (y & z & r1 & -> & H1 & _). apply sel_sq in H1. destruct H1 as (a & b & r2 & -> & H1 & _).
      apply sel_tk in H1. destruct H1 as (k & _ & -> & _). cbn in Hm. lia.
    - exists [], []. split; [reflexivity|]. split; [constructor|]. left. auto.
    - apply sel_sq in Hs. destruct Hs as (y & z & r1 & -> & H1 & H2). apply sel_sq in H1. destruct H1 as (a & b & r2 & -> & H1 & H3).
      apply sel_tk in H1. destruct H1 as (k & -> & -> & [Hk|[]]).
      apply Forall_app in Hso. destruct Hso as [Hab Hz]. apply Forall_app in Hab. destruct Hab as [_ Hb].
      pose proof (selects_viable _ _ _ _ _ H2 HK) as HK2. destruct (operand_canon _ _ _ _ H3 HK2 Hb) as (t & n & -> & Hn & Hcan & Hcl & Hev).
      pose proof (sel_eq _ _ _ _ _ H3) as E3. assert (Hlen : (List.length r1 <= m)%nat) by (cbn in Hm; rewrite E3, app_length in Hm; lia).
      destruct (IH K r1 z r Hlen H2 HK Hz) as (ns & ps & Hns & HF & Hc). exists (n :: ns), (leaves t :: ps).
      split; [cbn [app]; rewrite evs_leaf, Hev, Hns; reflexivity|]. split; [constructor; assumption|]. right. exists k, (leaves t ++ flat_map leaves z).
      split; [reflexivity|]. split; [auto|]. destruct Hc as [[-> ->]|(k' & y & Hy & Hk' & Hp)].
      + cbn. rewrite app_nil_r. apply parts_one; auto.
      + rewrite Hy. rewrite parts_sep by auto. rewrite Hp. reflexivity.
  Qed.
  Lemma disj_sel K s x r : selects (body query_disjunction) K s x r -> viable K (types r) -> Forall sound_child x ->
    exists ns, evs E C x = Some ns /\ Forall2 (canon_operand E C) (parts OR (flat_map leaves x)) ns /\ (2 <= List.length (parts OR (flat_map leaves x)))%nat.
  Proof.
    intros Hs HK Hso. cbn [body] in Hs. apply sel_sq in Hs. destruct Hs as (y & z & r1 & -> & H1 & H2).
    pose proof (selects_viable _ _ _ _ _ H2 HK) as HK2. apply Forall_app in Hso. destruct Hso as [Hy Hz].
    destruct (operand_canon _ _ _ _ H1 HK2 Hy) as (t & n & -> & Hn & Hcan & Hcl & Hev).
    apply sel_pl in H2. assert (Hst : selects (St ORL) K r1 z r).
    { apply s_st1; [|exact H2]. apply vsq_open. eapply selects_viable; eassumption. }
    destruct (alts_sel _ K r1 z r (le_n _) Hst HK Hz) as (ns & ps & Hns & HF & Hc). exists (n :: ns). split; [cbn [app]; rewrite Hev, Hns; reflexivity|].
    destruct Hc as [[-> _]|(k & y & Hy' & Hk & Hp)].
    - exfalso. apply sel_sq in H2. destruct H2 as (a & b & r2 & Heq & H2 & _). destruct a; [|discriminate]. apply sel_sq in H2. destruct H2 as (a & c & r3 & Heq2 & H2 & _).
      apply sel_tk in H2. destruct H2 as (k & -> & _). discriminate.
    - rewrite flat_map_app. cbn [flat_map]. rewrite app_nil_r, Hy', parts_sep by auto. rewrite Hp. split; [constructor; assumption|].
      subst ps. pose proof (parts_ne OR 0 y). unfold parts. destruct (parts_at OR 0 y); [contradiction|cbn; lia].
  Qed.
  Lemma ev_disj ch : sound (Node query_disjunction ch) ->
    exists ns, ev E C (Node query_disjunction ch) = Some (QN PDisjunction (span (leaves (Node query_disjunction ch))) ns) /\ evs E C ch = Some ns.
  Proof.
    intros Hso. destruct (ev_query_rule query_disjunction ch Hso eq_refl) as (n & Hn & Hy & Hs). assert (Hc : conds E (leaves (Node query_disjunction ch))) by apply Hso.
    cbn [spec] in Hs. destruct Hs as [_ [(m & (ns & -> & Hm) & _ & Hy')|[Hno _]]]; [|contradiction]. exists ns.
    rewrite (yields_det _ _ _ _ _ Hy Hy') in Hn. split; [exact Hn|].
    rewrite ev_eq in Hn. cbn [ev_node] in Hn. destruct (evs E C ch) as [ns'|]; [|discriminate]. cbn [option_map] in Hn. congruence.
  Qed.

  Lemma disj_content K s ch r : selects (NT query_disjunction) K s [Node query_disjunction ch] r -> viable K (types r) -> sound (Node query_disjunction ch) ->
    exists ns, ev E C (Node query_disjunction ch) = Some (QN PDisjunction (span (leaves (Node query_disjunction ch))) ns) /\
      Forall2 (canon_operand E C) (parts OR (leaves (Node query_disjunction ch))) ns /\ (2 <= List.length (parts OR (leaves (Node query_disjunction ch))))%nat.
  Proof.
    intros Hs HK Hso. apply sel_nt in Hs. destruct Hs as (ch' & Heq & Hs). injection Heq as <-. destruct (sound_children _ _ _ Hso) as [_ Hch].
    destruct (disj_sel _ _ _ _ Hs HK Hch) as (ns & Hns & HF & Hl). destruct (ev_disj ch Hso) as (ns' & Hev & Hns'). rewrite Hns in Hns'. injection Hns' as <-. eauto.
  Qed.
  Lemma seq_parts ch : sound (Node query_sequence ch) -> parts OR (leaves (Node query_sequence ch)) = [leaves (Node query_sequence ch)].
  Proof.
    intros ((r & Hr) & _). inversion Hr; subst. apply parts_one; [auto|]. apply nt_clean; [exact Hr|cbn; tauto].
  Qed.
  Lemma content_sel K s x r : selects (NT query_disjunction \/? NT query_sequence) K s x r -> viable K (types r) -> Forall sound_child x ->
    exists t n, x = [t] /\ ev E C t = Some n /\ canon_content E C (leaves t) n.
  Proof.
    intros Hs HK Hso. apply sel_al in Hs. destruct Hs as [Hs|[_ Hs]].
    - assert (Hx : exists ch, x = [Node query_disjunction ch]) by (apply sel_nt in Hs; destruct Hs as (ch & -> & _); eauto). destruct Hx as (ch & ->).
      inversion Hso as [|? ? Hst _]; subst. destruct (disj_content _ _ _ _ Hs HK Hst) as (ns & Hev & HF & Hl). eexists _, _. split; [reflexivity|]. split; [exact Hev|].
      unfold canon_content. destruct (parts OR _) as [|a [|b l]]; [cbn in Hl; lia|cbn in Hl; lia|]. eauto.
    - apply sel_nt in Hs. destruct Hs as (ch & -> & _). inversion Hso as [|? ? Hst _]; subst. destruct (ev_seq ch Hst) as (ns & Hn & Hq & _).
      eexists _, _. split; [reflexivity|]. split; [exact Hn|]. unfold canon_content. rewrite seq_parts by exact Hst. eauto.
  Qed.
  Lemma seq_length ch ns : derives (Pl (Al (NT query_simple) (NT query_group))) ch -> Forall sound_child ch -> evs E C ch = Some ns -> List.length ch = List.length ns.
  Proof.
    assert (Hitem : forall a, derives (Al (NT query_simple) (NT query_group)) a -> exists r ch, a = [Node r ch] /\ (r = query_simple \/ r = query_group)).
    { intros a0 H0. inversion H0 as [| | |? ? ? H1|? ? ? H1| | | | |]; subst; destruct (one_node _ _ H1) as (c0 & ->); eexists _, _; (split; [reflexivity|auto]). }
    assert (Hst : forall e x, derives e x -> e = St (Al (NT query_simple) (NT query_group)) -> Forall sound_child x -> forall ns, evs E C x = Some ns -> List.length x = List.length ns).
    { induction 1 as [| | | | | | | |?|? x y Hx _ Hy IH]; intros He Hs ns0 Hns; try discriminate He; [injection Hns as <-; reflexivity|].
      injection He as ->. destruct (Hitem _ Hx) as (r & c & -> & Hr). cbn [app] in *. inversion Hs as [|? ? Hs1 Hs2]; subst.
      destruct (ev_item r c Hs1 Hr) as (n1 & Hn1 & _). change (evs E C (Node r c :: y)) with (if valueless r then evs E C y else match ev E C (Node r c), evs E C y with Some n, Some ns => Some (n :: ns) | _, _ => None end) in Hns.
      rewrite Hn1 in Hns. destruct (evs E C y) as [ny|] eqn:Hy'; [|destruct Hr; subst; discriminate]. assert (ns0 = n1 :: ny) as -> by (destruct Hr; subst; cbn in Hns; congruence).
      cbn. f_equal. eapply IH; eauto. }
    intros Hd Hs Hns. apply (Hst (St (Al (NT query_simple) (NT query_group))) ch); auto. inversion Hd; subst. constructor; assumption.
  Qed.
  Lemma main_sel K s x r : selects (body main_query) K s x r -> viable K (types r) -> Forall sound_child x ->
    exists t n, x = [t] /\ ev E C t = Some n /\ canon_main E C (leaves t) n.
  Proof.
    intros Hs HK Hso. pose proof (sel_eq _ _ _ _ _ Hs) as Heq. cbn [body] in Hs.
    assert (Hone : forall q ch, (q = query_simple \/ q = query_group) -> sound (Node q ch) -> exists n, ev E C (Node q ch) = Some n /\ canon_main E C (leaves (Node q ch)) n).
    { intros q ch Hq Hst. destruct (ev_item q ch Hst Hq) as (n & Hn & Hi & _). exists n. split; [exact Hn|]. unfold canon_main.
      rewrite (parts_one OR (leaves (Node q ch))); [|auto|destruct Hst as ((r0 & Hr) & _); inversion Hr; subst; apply nt_clean; [exact Hr|destruct Hq as [->| ->]; cbn; tauto]].
      exists [n]. split; [apply sq_one; exact Hi|reflexivity]. }
    apply sel_al in Hs. destruct Hs as [Hs|[Hn1 Hs]]; [|apply sel_al in Hs; destruct Hs as [Hs|[Hn2 Hs]]; [|apply sel_al in Hs; destruct Hs as [Hs|[Hn3 Hs]]]].
    - apply sel_nt in Hs. destruct Hs as (ch & -> & _). inversion Hso as [|? ? Hst _]; subst. destruct (Hone query_simple ch ltac:(auto) Hst) as (n & A & B). eauto.
    - apply sel_nt in Hs. destruct Hs as (ch & -> & _). inversion Hso as [|? ? Hst _]; subst. destruct (Hone query_group ch ltac:(auto) Hst) as (n & A & B). eauto.
    - apply sel_nt in Hs. destruct Hs as (ch & -> & Hs). inversion Hso as [|? ? Hst _]; subst. destruct (ev_seq ch Hst) as (ns & Hn & Hq & He).
      eexists _, _. split; [reflexivity|]. split; [exact Hn|]. unfold canon_main. rewrite seq_parts by exact Hst. exists ns. split; [exact Hq|].
      destruct ns as [|n0 [|? ?]]; try reflexivity. exfalso. destruct (sound_children _ _ _ Hst) as [Hb Hch]. pose proof (seq_length ch [n0] Hb Hch He) as Hl.
      destruct ch as [|t [|? ?]]; try discriminate Hl. cbn [flat_map app leaves] in *. rewrite !app_nil_r in *.
      assert (Hv : viable [NT query_simple] (types (leaves t)) \/ viable [NT query_group] (types (leaves t))).
      { cbn [body] in Hb. inversion Hb as [| | | | | | |? a b Ha Hb'| |]; subst.
        match goal with H : a ++ b = [t] |- _ => rename H into Hab end.
        assert (a = [t]) as -> by (inversion Ha as [| | |? ? ? H1|? ? ? H1| | | | |]; subst; destruct (one_node _ _ H1) as (c0 & ->); cbn in Hab; injection Hab as -> _; reflexivity).
        assert (Htt : types (leaves t) = ttypes [t]) by (unfold ttypes; cbn; rewrite app_nil_r; reflexivity). rewrite Htt.
        inversion Ha as [| | |? ? ? H1|? ? ? H1| | | | |]; subst; [left|right]; apply viable_one; eauto. }
      rewrite map_app in Hn1, Hn2. destruct Hv as [Hv|Hv]; [apply Hn1|apply Hn2]; apply viable_cons; assumption.
    - assert (Hx : exists ch, x = [Node query_disjunction ch]) by (apply sel_nt in Hs; destruct Hs as (ch & -> & _); eauto). destruct Hx as (ch & ->).
      inversion Hso as [|? ? Hst _]; subst. destruct (disj_content _ _ _ _ Hs HK Hst) as (ns & Hev & HF & Hl). eexists _, _. split; [reflexivity|]. split; [exact Hev|].
      unfold canon_main. destruct (parts OR _) as [|a [|b l]]; [cbn in Hl; lia|cbn in Hl; lia|]. eauto.
  Qed.
End QNodes.
