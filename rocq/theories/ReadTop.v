(** The documented reading and what the parser returns: lemmas about whole queries. *)
From Coq Require Import String Sorted.
From Verif Require Import Base Regex LexRules Lexer Grammar Antlr Ast Builder Parser LexSpec LitSpec
  GramSpec GramFacts ValueSpec ValueFacts SpellSpec BuilderFacts BuilderRules ParseSpec ParseFacts SimFacts LevelFacts SelFacts PrecFacts
  TreeSpec TreeFacts SitFacts LevelSpec LevelThm QuerySpec ConfigSpec ConfigFacts PropsLex PropsParse PropsConfig PropsTree PropsPrec PropsQuery ReadSpec ReadFacts ReadQuery ReadParse.
Local Open Scope Z_scope.

Definition tok_lt (a b : token) : Prop := t_start a <= t_stop a /\ t_stop a < t_start b /\ t_start b <= t_stop b.
Lemma tokens_sorted q : StronglySorted tok_lt (lx_tokens (lexemes q)).
Proof.
  apply Sorted_StronglySorted. { intros a b c (A & B & D) (A' & B' & D'). unfold tok_lt. lia. }
  assert (H : forall l pre, lx_tokens (lexemes q) = pre ++ l -> Sorted tok_lt l).
  { induction l as [|a l IH]; intros pre Hp; constructor.
    - apply (IH (pre ++ [a])). rewrite <- app_assoc. exact Hp.
    - destruct l as [|b l]; constructor. pose proof (C03_token_order _ _ _ _ _ Hp) as Ho.
      assert (Ha : In a (lx_tokens (lexemes q))) by (rewrite Hp; apply in_or_app; right; left; reflexivity).
      assert (Hb : In b (lx_tokens (lexemes q))) by (rewrite Hp; apply in_or_app; right; right; left; reflexivity).
      apply C03_token_text in Ha. apply C03_token_text in Hb. unfold tok_lt. lia. }
  apply (H _ []). reflexivity.
Qed.
Lemma sorted_piece l : StronglySorted tok_lt l -> forall te te' pre pre' post post', l = pre ++ te ++ post -> l = pre' ++ te' ++ post' ->
  te <> [] -> te' <> [] -> span te = span te' -> te = te'.
Proof.
  assert (Hpos : forall l, StronglySorted tok_lt l -> forall a a' pre pre' post post', l = pre ++ a :: post -> l = pre' ++ a' :: post' ->
     t_start a = t_start a' \/ t_stop a = t_stop a' -> pre = pre' /\ post = post').
  { clear l. intros l. induction 1 as [|x l Hs IH Hf]; intros a a' pre pre' post post' H1 H2 H. { destruct pre; discriminate. }
    rewrite Forall_forall in Hf. destruct pre as [|y pre], pre' as [|y' pre']; cbn in H1, H2.
    - split; [reflexivity|congruence].
    - exfalso. injection H1 as -> ->. injection H2 as -> ->. specialize (Hf a' ltac:(apply in_or_app; right; left; reflexivity)). unfold tok_lt in Hf. lia.
    - exfalso. injection H1 as -> ->. injection H2 as -> Hx. specialize (Hf a ltac:(apply in_or_app; right; left; reflexivity)). unfold tok_lt in Hf. lia.
    - injection H1 as -> ->. injection H2 as -> Hx. destruct (IH a a' pre pre' post post' eq_refl Hx H) as [-> ->]. auto. }
  intros Hs te te' pre pre' post post' H1 H2 Hn Hn' Hsp. destruct te as [|a te]; [congruence|]. destruct te' as [|a' te']; [congruence|].
  unfold span in Hsp. injection Hsp as Hst He.
  destruct (Hpos l Hs a a' pre pre' (te ++ post) (te' ++ post') H1 H2 (or_introl Hst)) as [-> Hp].
  assert (He2 : a = a'). { rewrite H2 in H1. apply app_inv_head in H1. cbn in H1. congruence. } subst a'.
  destruct (exists_last Hn) as (ti & z & Ez). destruct (exists_last Hn') as (ti' & z' & Ez').
  change (t_stop (last (a :: te) a) + 1 = t_stop (last (a :: te') a) + 1) in He. rewrite Ez, Ez', !last_last in He.
  rewrite Ez in H1. rewrite Ez' in H2. rewrite <- app_assoc in H1, H2. cbn [app] in H1, H2. rewrite app_assoc in H1, H2.
  destruct (Hpos l Hs z z' _ _ _ _ H1 H2) as [Hq ->]; [right; lia|]. apply app_inv_head in Hq. rewrite Ez, Ez'. rewrite Hq. f_equal.
  rewrite H2, Hq in H1. apply app_inv_head in H1. congruence.
Qed.
Lemma span_piece q te te' pre pre' post post' : lx_tokens (lexemes q) = pre ++ te ++ post -> lx_tokens (lexemes q) = pre' ++ te' ++ post' ->
  te <> [] -> te' <> [] -> span te = span te' -> te = te'.
Proof. intros. eapply sorted_piece; eauto using tokens_sorted. Qed.

Section On.
  Variables (V : env) (P : qparser) (q : pystr) (n : qnode).
  Hypothesis HV : env_ok V.
  Hypothesis Hon : enableSourceLocations (qp_cfg P) = true.
  Hypothesis Hp : parse V P q = Ok n.
  Notation E := (e_penv V). Notation C := (qp_cfg P). Notation toks := (lx_tokens (lexemes q)).
  Lemma on_levels : forall m c pre te post, subnode m n -> level_of m c -> toks = pre ++ te ++ post -> sp_expr E C te c ->
    (textbook E C te c <-> (forall i, ~ deviates (shape te) i)).
  Proof.
    intros m c pre te post Hm Hl Ht Hs. destruct (C19_exact V P q n m c HV Hp Hm Hl) as (pre' & l & te' & r & post' & c0 & Ht' & _ & Hc & Hs' & Hx).
    rewrite Hon in Hc. cbn [with_locs] in Hc. subst c0.
    assert (te = te') as ->; [|exact Hx].
    eapply span_piece with (pre := pre) (post := post) (pre' := pre' ++ [l]) (post' := r :: post'); [exact Ht|rewrite Ht', <- app_assoc; reflexivity| | |].
    - intros ->. eapply (proj1 (expr_ne E C)); [exact Hs|reflexivity].
    - intros ->. eapply (proj1 (expr_ne E C)); [exact Hs'|reflexivity].
    - rewrite <- (stands_loc E C te c (st_expr _ _ _ _ Hs)). apply (stands_loc E C te' c (st_expr _ _ _ _ Hs')).
  Qed.
  Lemma canon_ne tc c : canon_content E C tc c -> tc <> [] /\ q_loc c = span tc.
  Proof.
    unfold canon_content. intros H. split.
    - intros ->. cbn in H. destruct H as (ns & Hs & _). eapply (proj1 (proj2 (item_ne E C))); [exact Hs|reflexivity].
    - destruct (parts OR tc) as [|p [|p' ps]]; destruct H as (ns & _ & ->); reflexivity.
  Qed.
  Lemma on_groups : forall m c pre tc post, subnode m n -> q_class m = CQueryGroup -> q_children m = [c] -> toks = pre ++ tc ++ post -> sp_content E C tc c ->
    canon_content E C tc c.
  Proof.
    intros m c pre tc post Hm Hcl Hch Ht Hs. destruct (C16_groups V P q n m HV Hp Hm Hcl) as (pre' & l & tc' & r & post' & c0 & Ht' & _ & _ & _ & Hc & Hx).
    rewrite Hon in Hc. cbn [with_locs] in Hc. rewrite Hch in Hc. injection Hc as <-.
    assert (tc = tc') as ->; [|exact Hx]. destruct (canon_ne _ _ Hx) as [Hne Hloc].
    eapply span_piece with (pre := pre) (post := post) (pre' := pre' ++ [l]) (post' := r :: post'); [exact Ht|rewrite Ht', <- app_assoc; reflexivity| |exact Hne|].
    - intros ->. eapply (proj2 (proj2 (proj2 (proj2 (item_ne E C))))); [exact Hs|reflexivity].
    - rewrite <- Hloc. symmetry. apply (stands_loc E C tc c (st_content _ _ _ _ Hs)).
  Qed.
  Lemma read_on a : rd_query E C (tokens q) a -> no_deviation a -> n = a.
  Proof.
    intros Ha Hd. destruct (C16_query V P q n HV Hp) as (ts & n0 & Hcan & Hcases). rewrite tokens_split in Ha. rewrite Hon in Hcases. cbn [with_locs] in Hcases.
    assert (W19 : forall m c pre te post, subnode m n -> level_of m c -> toks = pre ++ te ++ post -> sp_expr E C te c -> (forall i, ~ deviates (shape te) i) -> textbook E C te c).
    { intros m c pre te post Hm Hl Ht Hs Hdv. eapply on_levels; eassumption. }
    assert (Hsq : exists m0, sp_query E C (tokens q) m0 /\ n = m0).
    { destruct (C02_denoted V P q n HV Hp) as (m0 & Hm0 & Hn). rewrite Hon in Hn. eauto. }
    destruct Hsq as (m0 & Hsq & <-). rewrite tokens_split in Hsq.
    inversion Ha as [ta a' e Hma He Hta Ea|ta a' w k sc e Hma Hw Hk Hsc He Hta Ea].
    - subst a'. apply app_inj_tail in Hta. destruct Hta as [-> ->].
      destruct Hcases as [[Hts Hn]|(w & k & sc & Hts & Hw & Hk & _ & _)].
      + subst ts n0. eapply (walk_main E C toks n W19 on_groups toks a n Hma Hd (sub_here n)); [exists [], []; rewrite app_nil_r; reflexivity|exact Hcan].
      + exfalso. eapply (main_no_within E C toks a); [apply rd_main_sound; exact Hma|exact Hts|exact Hk].
    - replace (ta ++ [w; k; e]) with ((ta ++ [w; k]) ++ [e]) in Hta by (rewrite <- app_assoc; reflexivity). apply app_inj_tail in Hta. destruct Hta as [Hta ->].
      destruct Hcases as [[Hts Hn]|(w' & k' & sc' & Hts & Hw' & Hk' & Hsc' & Hn)].
      + exfalso. inversion Hsq as [ta' a'' e' Hma' He' Hta' Ea'|ta' a'' w' k' sc' e' Hma' Hw' Hk' Hsc' He' Hta' Ea'].
        * subst a''. apply app_inj_tail in Hta'. destruct Hta' as [-> _]. eapply (main_no_within E C toks n); [exact Hma'|symmetry; exact Hta|exact Hk].
        * subst n0. rewrite <- Ea' in Hcan. unfold canon_main in Hcan. destruct (parts OR ts) as [|p [|p' ps]]; destruct Hcan as (ns & Hns & Heq); try discriminate Heq.
          destruct ns as [|x [|y l]]; try discriminate Heq. subst x. inversion Hns as [? ? Hit|? ? ? ? Hit Hrest]; subst; [inversion Hit|inversion Hrest].
      + rewrite Hts in Hta. assert (Hx : ta = ts /\ w = w' /\ k = k'). { replace (ta ++ [w; k]) with ((ta ++ [w]) ++ [k]) in Hta by (rewrite <- app_assoc; reflexivity). replace (ts ++ [w'; k']) with ((ts ++ [w']) ++ [k']) in Hta by (rewrite <- app_assoc; reflexivity). apply app_inj_tail in Hta. destruct Hta as [Hta ->]. apply app_inj_tail in Hta. destruct Hta as [-> ->]. auto. }
        destruct Hx as (-> & -> & ->). pose proof (scope_fun _ _ _ Hsc Hsc') as ->. subst a.
        rewrite <- (walk_main E C toks n W19 on_groups ts a' n0 Hma); [exact Hn| | | |exact Hcan].
        * eapply no_dev_child; [exact Hd|left; reflexivity].
        * rewrite Hn. eapply sub_child; [left; reflexivity|apply sub_here].
        * exists [], [w'; k']. exact Hts.
  Qed.
End On.
