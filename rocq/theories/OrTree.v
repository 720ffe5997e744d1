(** In a result, a disjunction that is an operand of a conjunction starts with a negation. *)
From Coq Require Import String.
From Verif Require Import Base Regex LexRules Lexer Grammar Antlr Ast Builder Parser LexSpec LitSpec LexThms
  GramSpec GramFacts ValueSpec ValueFacts SpellSpec BuilderFacts BuilderRules ParseSpec ParseFacts SimFacts LevelFacts SelFacts PrecFacts PrecConv EvFacts
  TreeSpec TreeFacts LevelSpec LevelThm SubEv DepthSpec DepthFacts PropsPrec OrInAnd.
Local Open Scope Z_scope.

(** ** Parents *)
Fixpoint mentions (e : ebnf) (r : rule) : bool :=
  match e with
  | Tk _ => false
  | NT r' => if rule_eq_dec r r' then true else false
  | Sq a b | Al a b => mentions a r || mentions b r
  | Op a | Pl a | St a => mentions a r
  end.
Lemma derives_mentions e x : derives e x -> forall r ch, In (Node r ch) x -> mentions e r = true.
Proof.
  induction 1 as [l t Hin|r ch Hd IH|a b x y _ IH1 _ IH2|a b x _ IH|a b x _ IH|e|e x _ IH|e x y _ IH1 _ IH2|e|e x y _ IH1 _ IH2];
    intros r0 ch0 Hi; cbn [mentions]; try (apply orb_true_iff); try contradiction.
  - destruct Hi as [Hi|[]]. discriminate.
  - destruct Hi as [Hi|[]]. injection Hi as -> ->. destruct (rule_eq_dec r0 r0); congruence.
  - apply in_app_or in Hi. destruct Hi as [Hi|Hi]; eauto.
  - left. eauto.
  - right. eauto.
  - eauto.
  - apply in_app_or in Hi. destruct Hi as [Hi|Hi]; eauto.
  - apply in_app_or in Hi. destruct Hi as [Hi|Hi]; eauto.
Qed.
Lemma sub_parent t r ch : subtree (Node r ch) t -> t = Node r ch \/ exists rp chp, subtree (Node rp chp) t /\ In (Node r ch) chp.
Proof.
  induction 1 as [|rp chp c Hin Hsub IH]; [left; reflexivity|]. right. destruct IH as [->|(r' & ch' & Hs & Hi)].
  - exists rp, chp. split; [apply sbt_here|exact Hin].
  - exists r', ch'. split; [eapply sbt_child; eassumption|exact Hi].
Qed.

(** ** Contexts of [&] nodes *)
Lemma or_pick m : forall z K s rr, (List.length z <= m)%nat -> selects (St orl) K s z rr -> viable K (types rr) ->
  forall r ch, In (Node r ch) z -> exists s2 r2, selects O4 (St orl :: K) s2 [Node r ch] r2 /\ viable (St orl :: K) (types r2).
Proof.
  induction m as [|m IH]; intros z K s rr Hm Hs HK r ch Hin; [destruct z; [destruct Hin|cbn in Hm; lia]|].
  apply sel_st in Hs. destruct Hs as [[-> _]|Hs]; [destruct Hin|].
  apply sel_sq in Hs. destruct Hs as (x & z' & r1 & -> & H1 & H2). apply sel_sq in H1. destruct H1 as (x1 & x2 & r0 & -> & Hk & H1).
  apply sel_tk in Hk. destruct Hk as (k & -> & -> & [Hk|[]]). pose proof (sel_drv _ _ _ _ _ H1) as Hd. destruct (op_O4 _ Hd) as (t & -> & _).
  destruct Hin as [E|[E|Hin]]; [discriminate| |].
  - subst t. exists r0, r1. split; [exact H1|]. eapply selects_viable; [exact H2|exact HK].
  - exact (IH z' K r1 rr ltac:(cbn in Hm; lia) H2 HK r ch Hin).
Qed.
Lemma sel_other r K s rr r' ch : selects (NT r) K s [Node r' ch] rr -> r = r'.
Proof. intros H. apply sel_nt in H. destruct H as (c & H & _). injection H as <- _. reflexivity. Qed.
Ltac no_other H := apply sel_other in H; discriminate H.
Lemma E5_ctx K s ch rr : selects E5 K s [Node expression_and ch] rr -> selects ea K s [Node expression_and ch] rr /\ or_ctx K s.
Proof.
  intros H. apply sel_al in H. destruct H as [H|[_ H]]; [no_other H|]. apply sel_al in H. destruct H as [H|[_ H]]; [no_other H|].
  apply sel_al in H. destruct H as [H|[Hn H]]; [no_other H|]. apply sel_al in H. destruct H as [H|[_ H]]; [|no_other H].
  split; [exact H|right; exact Hn].
Qed.
Lemma N5_ctx K s ch rr : selects N5 K s [Node expression_and ch] rr -> selects ea K s [Node expression_and ch] rr /\ or_ctx K s.
Proof.
  intros H. apply sel_al in H. destruct H as [H|[_ H]]; [no_other H|]. apply sel_al in H. destruct H as [H|[_ H]]; [no_other H|].
  apply sel_al in H. destruct H as [H|[_ H]]; [no_other H|]. apply sel_al in H. destruct H as [H|[Hn H]]; [no_other H|].
  split; [exact H|right; exact Hn].
Qed.
Lemma O4_ctx K s ch rr : selects O4 K s [Node expression_and ch] rr -> selects ea K s [Node expression_and ch] rr.
Proof.
  intros H. apply sel_al in H. destruct H as [H|[_ H]]; [no_other H|]. apply sel_al in H. destruct H as [H|[_ H]]; [no_other H|].
  apply sel_al in H. destruct H as [H|[_ H]]; [exact H|no_other H].
Qed.
Lemma and_ctx rp chp K s rr ch : selects (NT rp) K s [Node rp chp] rr -> viable K (types rr) -> In (Node expression_and ch) chp ->
  exists K' s' r', selects ea K' s' [Node expression_and ch] r' /\ viable K' (types r') /\ or_ctx K' s'.
Proof.
  intros H HK Hin. apply sel_nt in H. destruct H as (c & Heq & H). injection Heq as <-.
  pose proof (derives_mentions _ _ (sel_drv _ _ _ _ _ H) _ _ Hin) as Hmt.
  destruct rp; try (vm_compute in Hmt; discriminate Hmt); clear Hmt; cbn [body] in H.
  - (* expression *)
    destruct (op_E5 _ (sel_drv _ _ _ _ _ H)) as (t & -> & _). destruct Hin as [->|[]]. destruct (E5_ctx _ _ _ _ H) as [A B]. eauto 6.
  - (* expression_or *)
    apply sel_sq in H. destruct H as (y & z & r1 & -> & H1 & H2). destruct (op_O4 _ (sel_drv _ _ _ _ _ H1)) as (t & -> & _).
    apply in_app_or in Hin. destruct Hin as [[->|[]]|Hin].
    + apply O4_ctx in H1. exists (Pl orl :: K), s, r1. split; [exact H1|]. split; [eapply selects_viable; [exact H2|exact HK]|]. left. eauto.
    + assert (Hst : selects (St orl) K r1 z rr).
      { apply sel_pl in H2. apply s_st1; [|exact H2]. apply (proj1 (viable_sq orl (St orl) K (types r1))). eapply selects_viable; [exact H2|exact HK]. }
      destruct (or_pick _ z K r1 rr (le_n _) Hst HK _ _ Hin) as (s2 & r2 & A & B). apply O4_ctx in A. exists (St orl :: K), s2, r2. split; [exact A|]. split; [exact B|]. left. eauto.
  - (* expression_group *)
    apply sel_sq in H. destruct H as (y & z & r1 & -> & H1 & H2). apply sel_tk in H1. destruct H1 as (k & -> & -> & _).
    apply sel_sq in H2. destruct H2 as (y & z' & r2 & -> & H1 & H2). pose proof (selects_viable _ _ _ _ _ H2 HK) as HK2. apply sel_tk in H2. destruct H2 as (k2 & -> & -> & _).
    destruct (op_E5 _ (sel_drv _ _ _ _ _ H1)) as (t & -> & _). destruct Hin as [Hin|[->|[Hin|[]]]]; try discriminate Hin. destruct (E5_ctx _ _ _ _ H1) as [A B]. eauto 6.
  - (* expression_not *)
    apply sel_sq in H. destruct H as (y & z & r1 & -> & H1 & H2). apply sel_tk in H1. destruct H1 as (k & -> & -> & _).
    destruct (op_N5 _ (sel_drv _ _ _ _ _ H2)) as (t & -> & _). destruct Hin as [Hin|[->|[]]]; [discriminate Hin|]. destruct (N5_ctx _ _ _ _ H2) as [A B]. eauto 6.
Qed.

(** ** Results *)
Lemma starts_spelled E C :
  (forall ts n, sp_expr E C ts n -> forall k w, ts = k :: w -> t_type k = NOT -> starts_not n) /\
  (forall sep ts ns, sp_exprs E C sep ts ns -> forall k w, ts = k :: w -> t_type k = NOT -> exists c l, ns = c :: l /\ starts_not c).
Proof.
  assert (A : forall ta q i o tr k w, sp_attr ta q i -> ta ++ o :: tr = k :: w -> t_type k = NOT -> False).
  { intros ta q i o tr k w H Eq Hk. inversion H as [x Hx|x c y Hx Hc Hy]; subst; cbn in Eq; injection Eq as <- _; unfold name_tok in Hx; rewrite Hk in Hx; cbn in Hx; intuition discriminate. }
  assert (Ne : forall ts n, sp_expr E C ts n -> ts <> []).
  { intros ts n H ->. pose proof (proj1 (proj1 (expr_len E C) _ _ H)) as L. cbn in L. lia. }
  apply sp_expr_mutind; intros.
  - exfalso. eapply A; eassumption.
  - exfalso. match goal with H : _ :: _ = _ :: _ |- _ => injection H as <- _ end. unfold is_tok in *. congruence.
  - exact I.
  - match goal with H : forall k w, ts = k :: w -> _ |- _ => destruct (H _ _ ltac:(eassumption) ltac:(eassumption)) as (c & l & -> & Hc) end. exact Hc.
  - match goal with H : forall k w, ts = k :: w -> _ |- _ => destruct (H _ _ ltac:(eassumption) ltac:(eassumption)) as (c & l & -> & Hc) end. exact Hc.
  - eauto.
  - destruct ts as [|kk0 ts0]; [destruct (Ne _ _ ltac:(eassumption) eq_refl)|].
    match goal with H : (_ :: _) ++ _ = _ :: _ |- _ => cbn in H; injection H as <- _ end. eauto.
Qed.
Lemma starts_locs b n : starts_not (with_locs b n) <-> starts_not n.
Proof.
  destruct b; [reflexivity|]. cbn [with_locs]. induction n as [p l ch IH] using qnode_ind'. destruct p; cbn; try reflexivity; destruct ch as [|c ch]; try reflexivity; inversion IH; subst; assumption.
Qed.
Lemma or_starts V P q n m c : env_ok V -> parse V P q = Ok n -> subnode m n -> q_class m = CExpressionAnd ->
  In c (q_children m) -> q_class c = CExpressionOr -> starts_not c.
Proof.
  intros HV Hp Hm Hcl Hc Hco. destruct (parse_sub V P q n m HV Hp Hm) as (r & ch & m0 & K & pre & ts & rest & -> & Hev & Hmk & (tq & Htq & Hsub) & Hts & Hsel & HKv & HKo).
  rewrite with_locs_class in Hcl. rewrite with_locs_children in Hc. apply in_map_iff in Hc. destruct Hc as (c0 & <- & Hc). rewrite with_locs_class in Hco. apply starts_locs.
  assert (r = expression_and) as -> by (unfold q_class in Hcl; destruct (q_payload m0); try discriminate Hcl; destruct r; try discriminate Hmk; reflexivity).
  (* the operand *)
  assert (Hc' : exists t, In t ch /\ ev (e_penv V) (qp_cfg P) t = Some c0).
  { rewrite ev_eq in Hev. cbn [ev_node] in Hev. destruct (evs (e_penv V) (qp_cfg P) ch) as [qs|] eqn:Hqs; [|discriminate Hev].
    injection Hev as <-. cbn [q_children] in Hc. exact (evs_in _ _ ch qs c0 Hqs Hc). }
  destruct Hc' as (t & Hin & Ht).
  pose proof (sel_eq _ _ _ _ _ Hsel) as Ets. cbn [flat_map] in Ets. rewrite app_nil_r in Ets. pose proof (sel_drv _ _ _ _ _ Hsel) as Hd.
  assert (Hsd : sound (e_penv V) (Node expression_and ch)).
  { split; [exists expression_and; exact Hd|]. rewrite Ets in Hts. pose proof (tok_ok_sub q _ _ Hts) as Htk. pose proof (conds_sub V P q n _ _ HV Hp Hts) as Hcd.
    apply Forall_app in Htk. apply conds_weaken_app in Hcd. split; [apply Htk|apply Hcd]. }
  destruct (sound_children _ _ _ Hsd) as [Hdb HF]. rewrite Forall_forall in HF. specialize (HF t Hin).
  assert (Hop : op_tree t).
  { destruct (and_children _ Hdb) as (t1 & l1 & -> & Ho1 & Hsep & _). destruct t as [k|r1 ch1]; [discriminate Ht|]. destruct Hin as [<-|Hin]; [exact Ho1|].
    clear - Hsep Hin. induction Hsep as [|k t' l Hk Ho _ IH]; [destruct Hin|]. destruct Hin as [E|[E|Hin]]; [discriminate|subst t'; exact Ho|auto]. }
  destruct t as [k|r1 ch1]; [destruct Hop|]. destruct (ev_sound (e_penv V) (qp_cfg P) r1 ch1 HF Hop) as (c1 & Hc1 & Hsp & Hcr). replace c1 with c0 in * by congruence.
  rewrite Hco in Hcr. injection Hcr as <-.
  (* its place *)
  assert (Hroot : antlr_query (tokens q) = Some tq /\ exists chq, tq = Node query chq /\ selects (NT query) [] (tokens q) [tq] []).
  { split; [exact Htq|]. destruct (parse_ev V P q n HV Hp) as (t0 & n0 & Ht0 & Hpt & Hl0 & _ & _ & _). replace t0 with tq in * by congruence.
    assert (Hcf : conforms (tokens q)) by (exists tq; auto). destruct (antlr_query_selects _ Hcf) as (t' & Ht' & Hs' & _). replace t' with tq in * by congruence.
    pose proof Hs' as Hs2. apply sel_nt in Hs2. destruct Hs2 as (chq & E & _). injection E as ->. eauto. }
  destruct Hroot as (_ & chq & -> & Hselq).
  destruct (sub_parent _ _ _ Hsub) as [E|(rp & chp & Hsubp & Hinp)]; [discriminate E|].
  destruct (selects_inner _ _ _ _ _ Hselq viable_nil eq_refl rp chp _ (or_introl eq_refl) Hsubp) as (Kp & prep & tsp & restp & _ & Hselp & HKp & _).
  destruct (and_ctx _ _ _ _ _ _ Hselp HKp Hinp) as (K' & s' & r' & Hs' & HK' & Hctx).
  destruct (or_in_and _ _ _ _ Hs' HK' Hctx _ Hin) as (k & w & Hl & Hk).
  exact (proj1 (starts_spelled _ _) _ _ Hsp _ _ Hl Hk).
Qed.
