(** A bound on the depth of every result. *)
From Coq Require Import String.
From Verif Require Import Base Regex LexRules Lexer Grammar Antlr Ast Builder Parser LexSpec LitSpec LexThms
  GramSpec GramFacts ValueSpec ValueFacts SpellSpec BuilderFacts BuilderRules ParseSpec ParseFacts TreeSpec TreeFacts LevelSpec DepthSpec DepthFacts OrTree.

Section All.
  Variables (E : penv) (C : pcfg).
  (** Disjunctions inside conjunctions start with a negation. *)
  Definition guarded (n : qnode) : Prop := forall m c, subnode m n -> q_class m = CExpressionAnd -> In c (q_children m) -> q_class c = CExpressionOr -> starts_not c.
  Lemma guarded_child p l ch c : guarded (QN p l ch) -> In c ch -> guarded c.
  Proof. intros H Hc m d Hm. apply H. econstructor; eassumption. Qed.
  Lemma guarded_children p l ch : guarded (QN p l ch) -> Forall guarded ch.
  Proof. intros H. apply Forall_forall. intros c Hc. eapply guarded_child; eassumption. Qed.

  Fixpoint startsb (n : qnode) : bool :=
    match n with
    | QN PNot _ _ => true
    | QN PAnd _ (c :: _) | QN POr _ (c :: _) => startsb c
    | _ => false
    end.
  Lemma startsb_ok n : starts_not n <-> startsb n = true.
  Proof.
    induction n as [p l ch IH] using qnode_ind'. destruct p; cbn; try (split; [intros []|discriminate]); try (split; auto; fail);
      destruct ch as [|c ch]; try (split; [intros []|discriminate]); inversion IH; subst; assumption.
  Qed.
  Definition base (n : qnode) : nat :=
    match q_payload n with
    | PNot => 0
    | PAnd => if startsb n then 1 else 3
    | POr => if startsb n then 2 else 4
    | _ => 2
    end.
  Definition fits (ts : list token) (n : qnode) : Prop := exists N, walk ts N /\ (S (qheight n) <= 3 * N + 5 * negations ts + base n)%nat.
  Lemma base_max n : (base n <= 4)%nat.
  Proof. unfold base. destruct (q_payload n); try lia; destruct (startsb n); lia. Qed.
  Lemma starts_neg ts n : sp_expr E C ts n -> startsb n = true -> (1 <= negations ts)%nat.
  Proof.
    intros H. revert ts H. induction n as [p l ch IH] using qnode_ind'. intros ts H Hs. inversion H; subst; try discriminate Hs.
    - rewrite neg_cons. match goal with H : is_tok NOT _ |- _ => rewrite H end. cbn [ttype_eqb]. cbn. lia.
    - match goal with H : sp_exprs _ _ _ _ _ |- _ => inversion H; subst end; inversion IH; subst; [eauto|]. rewrite neg_app. cbn [startsb] in Hs.
      match goal with H : forall ts, sp_expr _ _ ts n -> _, H' : sp_expr _ _ _ n |- _ => specialize (H _ H' Hs) end. lia.
    - match goal with H : sp_exprs _ _ _ _ _ |- _ => inversion H; subst end; inversion IH; subst; [eauto|]. rewrite neg_app. cbn [startsb] in Hs.
      match goal with H : forall ts, sp_expr _ _ ts n -> _, H' : sp_expr _ _ _ n |- _ => specialize (H _ H' Hs) end. lia.
  Qed.
  (** Operands: a common walk, and every operand fits; beside a first one with a negation, five less. *)
  Definition operands (ts : list token) (ns : list qnode) : Prop :=
    exists N, walk ts N /\ Forall (fun n => S (qheight n) <= 3 * N + 5 * negations ts + base n)%nat ns /\
    (forall c l, ns = c :: l -> startsb c = true -> Forall (fun n => S (qheight n) + 5 <= 3 * N + 5 * negations ts + base n)%nat l).
  Lemma height_children p l ch k : Forall (fun n => S (qheight n) <= k)%nat ch -> (1 <= k)%nat -> (qheight (QN p l ch) <= k)%nat.
  Proof. intros H Hk. destruct k as [|k]; [lia|]. apply qheight_le. eapply Forall_impl; [|exact H]. cbn beta. intros; lia. Qed.
  Lemma sep_walk k b M sep : (sep = AND \/ sep = OR) -> is_tok sep k -> walk b M -> walk (k :: b) M.
  Proof. intros Hs Hk W. apply walk_cons; [|exact W]. eapply sep_inert; [exact Hk|]. destruct Hs; auto. Qed.
  Lemma expr_fits :
    (forall ts n, sp_expr E C ts n -> guarded n -> fits ts n) /\
    (forall sep ts ns, sp_exprs E C sep ts ns -> sep = AND \/ sep = OR -> Forall guarded ns -> operands ts ns).
  Proof.
    apply sp_expr_mutind.
    - intros ta o tr q i op v fl A B D _. exists 0%nat. split; [eapply basic_walk; eassumption|]. cbn. lia.
    - intros l ts r n Hl H IH Hr Hg. destruct (IH (guarded_child _ _ _ n Hg (or_introl eq_refl))) as (N & W & L). exists (S N). split.
      + replace (S N) with (Nat.max (S N) 0) by lia. apply walk_bracket; [left; exact Hl|left; exact Hr|exact W|apply walk_nil].
      + rewrite neg_cons, neg_app. cbn [base q_payload]. rewrite qheight_eq. cbn [map list_max fold_right]. pose proof (base_max n). lia.
    - intros k ts n Hk H IH Hg. destruct (IH (guarded_child _ _ _ n Hg (or_introl eq_refl))) as (N & W & L). exists N. split.
      + apply walk_cons; [eapply sep_inert; [exact Hk|tauto]|exact W].
      + rewrite neg_cons, Hk. cbn [ttype_eqb]. unfold base at 1. cbn [q_payload]. rewrite qheight_eq. cbn [map list_max fold_right]. pose proof (base_max n). cbn. lia.
    - intros ts ns H IH H2 Hna Hno Hg. destruct (IH (or_introl eq_refl) (guarded_children _ _ _ Hg)) as (N & W & F & F5). exists N. split; [exact W|].
      assert (B : Forall (fun c => base c <= 2)%nat ns).
      { apply Forall_forall. intros c Hc. specialize (Hna c Hc). unfold base. destruct (q_payload c) eqn:Hp; try lia; [congruence|].
        assert (startsb c = true) as ->; [|lia]. apply startsb_ok. apply (Hg (QN PAnd (span ts) ns) c); [constructor|reflexivity|exact Hc|unfold q_class; rewrite Hp; reflexivity]. }
      destruct ns as [|c l]; [cbn in H2; lia|]. unfold base. cbn [q_payload startsb].
      destruct (startsb c) eqn:Hs.
      + specialize (F5 c l eq_refl Hs). inversion F as [|? ? Fc _]; subst. inversion B as [|? ? _ Bl]; subst.
        assert (Hc0 : base c = 0%nat). { specialize (Hna c (or_introl eq_refl)). specialize (Hno c eq_refl). unfold base. destruct c as [p0 l0 ch0]. cbn [q_payload] in *. destruct p0; cbn in Hs; try congruence; try discriminate. }
        assert (L : (qheight (QN PAnd (span ts) (c :: l)) <= 3 * N + 5 * negations ts)%nat).
        { apply height_children.
          - constructor; [lia|]. rewrite Forall_forall in *. intros x Hx. specialize (F5 x Hx). specialize (Bl x Hx). lia.
          - lia. }
        lia.
      + assert (L : (qheight (QN PAnd (span ts) (c :: l)) <= 3 * N + 5 * negations ts + 2)%nat).
        { apply height_children; [|lia]. rewrite Forall_forall in *. intros x Hx. specialize (F x Hx). specialize (B x Hx). lia. }
        lia.
    - intros ts ns H IH H2 Hno Hg. destruct (IH (or_intror eq_refl) (guarded_children _ _ _ Hg)) as (N & W & F & F5). exists N. split; [exact W|].
      assert (B : Forall (fun c => base c <= 3)%nat ns).
      { apply Forall_forall. intros c Hc. specialize (Hno c Hc). unfold base. destruct (q_payload c) eqn:Hp; try lia; [|congruence]. destruct (startsb c); lia. }
      destruct ns as [|c l]; [cbn in H2; lia|]. unfold base. cbn [q_payload startsb].
      destruct (startsb c) eqn:Hs.
      + specialize (F5 c l eq_refl Hs). inversion F as [|? ? Fc _]; subst. inversion B as [|? ? _ Bl]; subst.
        assert (Hc0 : (base c <= 1)%nat). { specialize (Hno c (or_introl eq_refl)). unfold base. destruct c as [p0 l0 ch0]. cbn [q_payload] in *. destruct p0; try congruence; try discriminate; try rewrite Hs; lia. }
        assert (L : (qheight (QN POr (span ts) (c :: l)) <= 3 * N + 5 * negations ts + 1)%nat).
        { apply height_children.
          - constructor; [lia|]. rewrite Forall_forall in *. intros x Hx. specialize (F5 x Hx). specialize (Bl x Hx). lia.
          - lia. }
        lia.
      + assert (L : (qheight (QN POr (span ts) (c :: l)) <= 3 * N + 5 * negations ts + 3)%nat).
        { apply height_children; [|lia]. rewrite Forall_forall in *. intros x Hx. specialize (F x Hx). specialize (B x Hx). lia. }
        lia.
    - intros sep ts n H IH _ Hg. inversion Hg; subst. destruct (IH ltac:(assumption)) as (N & W & L). exists N. split; [exact W|]. split; [repeat constructor; exact L|].
      intros c l Eq _. injection Eq as <- <-. constructor.
    - intros sep ts n k ts' ns H IH Hk H' IH' Hsep Hg. inversion Hg as [|? ? Hg1 Hg2]; subst. destruct (IH Hg1) as (N & W & L). destruct (IH' Hsep Hg2) as (M & W' & F & _).
      exists (Nat.max N M). split; [apply walk_app; [exact W|eapply sep_walk; eassumption]|].
      assert (Hn : negations (ts ++ k :: ts') = (negations ts + negations ts')%nat).
      { rewrite neg_app, neg_cons. rewrite Hk. destruct Hsep as [-> | ->]; cbn; lia. }
      rewrite Hn. split.
      + constructor; [lia|]. eapply Forall_impl; [|exact F]. cbn beta. intros; lia.
      + intros c l Eq Hs. injection Eq as <- <-. pose proof (starts_neg _ _ H Hs). eapply Forall_impl; [|exact F]. cbn beta. intros; lia.
  Qed.

  (** Outside brackets. *)
  Definition wide (c : nat) (ts : list token) (ns : list qnode) : Prop :=
    exists N, walk ts N /\ Forall (fun n => qheight n <= 3 * N + c + 5 * negations ts)%nat ns.
  Lemma wide_one c p l ts ns : wide c ts ns -> wide (S c) ts [QN p l ns].
  Proof.
    intros (N & W & F). exists N. split; [exact W|]. constructor; [|constructor].
    replace (3 * N + S c + 5 * negations ts)%nat with (S (3 * N + c + 5 * negations ts)) by lia. apply qheight_le. exact F.
  Qed.
  Lemma wide_le c c' ts ns : (c <= c')%nat -> wide c ts ns -> wide c' ts ns.
  Proof. intros L (N & W & F). exists N. split; [exact W|]. eapply Forall_impl; [|exact F]. cbn beta. intros; lia. Qed.
  Lemma wide_cat c a b ns ms : wide c a ns -> wide c b ms -> wide c (a ++ b) (ns ++ ms).
  Proof.
    intros (N & W & F) (M & W' & F'). exists (Nat.max N M). split; [apply walk_app; assumption|]. rewrite neg_app.
    apply Forall_app. split; [eapply Forall_impl; [|exact F]|eapply Forall_impl; [|exact F']]; cbn beta; intros; lia.
  Qed.
  Lemma wide_sep c a k b ns ms : wide c a ns -> inert k -> wide c b ms -> wide c (a ++ k :: b) (ns ++ ms).
  Proof.
    intros H Hk (M & W & F). apply wide_cat; [exact H|]. exists M. split; [apply walk_cons; assumption|].
    eapply Forall_impl; [|exact F]. cbn beta. intros n L. rewrite neg_cons. lia.
  Qed.
  Lemma wide_bracket c p loc l ts r rest ns : wide c ts ns -> (is_tok L_PAREN l \/ is_tok L_SQUARE_BRACKET l) ->
    (is_tok R_PAREN r \/ is_tok R_SQUARE_BRACKET r) -> Forall inert rest -> wide (c - 2) (l :: ts ++ r :: rest) [QN p loc ns].
  Proof.
    intros (N & W & F) Hl Hr Hi. exists (S N). split.
    - replace (S N) with (Nat.max (S N) 0) by lia. apply walk_bracket; [exact Hl|exact Hr|exact W|apply walk_inert; exact Hi].
    - constructor; [|constructor].
      assert (HN : (negations ts <= negations (l :: ts ++ r :: rest))%nat) by (rewrite neg_cons, neg_app; lia).
      etransitivity; [apply qheight_le; eapply Forall_impl; [|exact F]; cbn beta; intros n L; exact L|]. lia.
  Qed.
  Lemma item_wide :
    (forall ts n, sp_item E C ts n -> guarded n -> wide 2 ts [n]) /\ (forall ts ns, sp_seq E C ts ns -> Forall guarded ns -> wide 2 ts ns) /\
    (forall ts ns, sp_alts E C ts ns -> Forall guarded ns -> wide 3 ts ns) /\ (forall ts n, sp_operand E C ts n -> guarded n -> wide 3 ts [n]) /\
    (forall ts n, sp_content E C ts n -> guarded n -> wide 4 ts [n]).
  Proof.
    apply sp_item_mutind.
    - intros tr tq v fl mn mx A B _. exists 0%nat. split.
      + apply walk_inert, Forall_app. split; [eapply regex_inert; eassumption|eapply quantified_inert; eassumption].
      + constructor; [|constructor]. cbn. lia.
    - intros l r tq mn mx Hl Hr Hq _. exists 1%nat. split.
      + apply (walk_bracket l [] r tq 0 0); [right; assumption|right; assumption|apply walk_nil|apply walk_inert; eapply quantified_inert; eassumption].
      + constructor; [|constructor]. cbn. lia.
    - intros l te r tq n mn mx Hl H Hr Hq Hg. apply (wide_le 1); [lia|]. apply (wide_bracket 3 _ _ l te r tq [n]);
        [|right; assumption|right; assumption|eapply quantified_inert; eassumption].
      destruct (proj1 expr_fits _ _ H (guarded_child _ _ _ n Hg (or_introl eq_refl))) as (N & W & L). exists N. split; [exact W|]. constructor; [|constructor].
      pose proof (base_max n). lia.
    - intros l tc r tq n mn mx Hl H IH Hr Hq Hg. apply (wide_bracket 4 _ _ l tc r tq [n]); [|left; assumption|left; assumption|eapply quantified_inert; eassumption].
      apply IH. exact (guarded_child _ _ _ n Hg (or_introl eq_refl)).
    - intros ts n H IH Hg. inversion Hg; subst. auto.
    - intros ts n ts' ns H IH H' IH' Hg. inversion Hg; subst. apply (wide_cat 2 _ _ [n] ns); auto.
    - intros ts n H IH Hg. inversion Hg; subst. auto.
    - intros ts n k ts' ns H IH Hk H' IH' Hg. inversion Hg; subst. apply (wide_sep 3 _ _ _ [n] ns); [auto|eapply sep_inert; [eassumption|tauto]|auto].
    - intros ts n H IH Hg. apply (wide_le 2); [lia|auto].
    - intros ts ns H IH Hg. apply wide_one, IH. exact (guarded_children _ _ _ Hg).
    - intros ts ns H IH Hg. apply (wide_le 3); [lia|]. apply wide_one, IH. exact (guarded_children _ _ _ Hg).
    - intros ts ns H IH H2 Hg. apply wide_one, IH. exact (guarded_children _ _ _ Hg).
  Qed.
  Lemma main_wide ts n : sp_main E C ts n -> guarded n -> wide 4 ts [n].
  Proof.
    destruct item_wide as (A & _ & _ & _ & D). intros H Hg. inversion H; subst; [|auto]. apply (wide_le 2); [lia|auto].
  Qed.
  Lemma query_wide ts n : sp_query E C ts n -> guarded n -> (qheight n <= 3 * nesting ts + 5 * negations ts + 5)%nat.
  Proof.
    intros H Hg. assert (K : wide 5 ts [n]).
    { inversion H; subst.
      - apply (wide_le 4); [lia|]. apply (wide_cat 4 _ _ [n] []); [apply main_wide; assumption|]. exists 0%nat. split; [|constructor].
        apply walk_inert. constructor; [eapply sep_inert; [eassumption|tauto]|constructor].
      - assert (K : wide 4 [w; k; e] [QN (PSimpleWithin sc) (span [k]) []]).
        { exists 0%nat. split.
          - apply walk_inert. repeat constructor; (eapply sep_inert; [eassumption|tauto]).
          - constructor; [cbn; lia|constructor]. }
        apply wide_one. apply (wide_cat 4 _ _ [n0] [_]); [apply main_wide; [assumption|]|exact K]. exact (guarded_child _ _ _ n0 Hg (or_introl eq_refl)). }
    destruct K as (N & W & F). rewrite (walk_nesting _ _ W). inversion F; subst. lia.
  Qed.
End All.
