(** Documented trees: the shapes readings have, as a decidable predicate on trees. *)
From Coq Require Import String.
From Verif Require Import Base LexRules Lexer Ast Builder LitSpec ValueSpec SpellSpec TreeSpec TreeFacts LevelSpec ParseFacts ReadSpec ReadFacts ReadQuery.
Local Open Scope Z_scope.

(** Between brackets: 0 = level, 1 = term (no [|] outside parentheses), 2 = factor (neither). *)
Fixpoint strat (k : nat) (n : qnode) : bool :=
  match n with
  | QN p _ ch =>
    match p with
    | PExpr _ _ _ _ _ => match ch with [] => true | _ => false end
    | PExprGroup => forallb (strat 0) ch
    | PNot => forallb (strat 2) ch
    | PAnd => Nat.leb k 1 && forallb (strat 2) ch
    | POr => Nat.eqb k 0 && forallb (strat 1) ch
    | _ => false
    end
  end.
(** Outside: 0 = item, 1 = operand of [|], 2 = between parentheses. *)
Definition lone_segment (ch : list qnode) : bool := match ch with [QN (PSegment _ _) _ _] => true | _ => false end.
Fixpoint ostrat (k : nat) (n : qnode) : bool :=
  match n with
  | QN p _ ch =>
    match p with
    | PSegment _ _ => Nat.leb k 1 && match ch with [QN PWildcard _ []] => true | _ => forallb (strat 0) ch end
    | PQGroup _ _ => Nat.eqb k 0 && forallb (ostrat 2) ch
    | PSequence => match k with O => false | S O => negb (lone_segment ch) && forallb (ostrat 0) ch | _ => forallb (ostrat 0) ch end
    | PDisjunction => Nat.eqb k 2 && forallb (ostrat 1) ch
    | _ => false
    end
  end.
Definition mstrat (n : qnode) : bool :=
  ostrat 0 n || match n with
  | QN PSequence _ ch => Nat.leb 2 (List.length ch) && forallb (ostrat 0) ch
  | QN PDisjunction _ ch => forallb (ostrat 1) ch
  | _ => false
  end.
Definition qstrat (n : qnode) : bool := match n with QN PWithWithin _ [m; QN (PSimpleWithin _) _ []] => mstrat m | _ => mstrat n end.

Lemma strat_mono n : (strat 2 n = true -> strat 1 n = true) /\ (strat 1 n = true -> strat 0 n = true).
Proof. destruct n as [p l ch]. destruct p; cbn; split; auto; discriminate. Qed.
Lemma forallb_map {A B} (f : B -> bool) (g : A -> B) l : forallb f (map g l) = forallb (fun x => f (g x)) l.
Proof. induction l as [|x l IH]; cbn; [reflexivity|]. rewrite IH. reflexivity. Qed.
Lemma forallb_eq {A} (f g : A -> bool) l : (forall x, In x l -> f x = g x) -> forallb f l = forallb g l.
Proof. induction l as [|x l IH]; cbn; intros H; [reflexivity|]. rewrite H by auto. rewrite IH by auto. reflexivity. Qed.
Lemma strat_erase n : forall k, strat k (erase n) = strat k n.
Proof.
  induction n as [p l ch IH] using qnode_ind'. intros k. rewrite Forall_forall in IH.
  assert (H : forall j, forallb (strat j) (map erase ch) = forallb (strat j) ch) by (intros j; rewrite forallb_map; apply forallb_eq; intros x Hx; apply IH; exact Hx).
  destruct p; cbn [erase strat]; rewrite ?H; try reflexivity. destruct ch; reflexivity.
Qed.
Lemma lone_erase ch : lone_segment (map erase ch) = lone_segment ch.
Proof. destruct ch as [|[p l c] [|y ch]]; [reflexivity|destruct p; reflexivity|destruct p; reflexivity]. Qed.
Lemma ostrat_erase n : forall k, ostrat k (erase n) = ostrat k n.
Proof.
  induction n as [p l ch IH] using qnode_ind'. intros k. rewrite Forall_forall in IH.
  assert (H : forall j, forallb (ostrat j) (map erase ch) = forallb (ostrat j) ch) by (intros j; rewrite forallb_map; apply forallb_eq; intros x Hx; apply IH; exact Hx).
  destruct p; cbn [erase ostrat]; try reflexivity; rewrite ?lone_erase, ?H; try reflexivity.
  f_equal. destruct ch as [|[p l' c] [|y ch]]; cbn [map erase]; [reflexivity| |].
  - pose proof (strat_erase (QN p l' c) 0) as Hs. cbn [erase] in Hs. destruct p; cbn [forallb]; rewrite ?Hs; try reflexivity. destruct c; reflexivity.
  - pose proof (strat_erase (QN p l' c) 0) as Hs. cbn [erase] in Hs.
    assert (Hy : forallb (strat 0) (map erase (y :: ch)) = forallb (strat 0) (y :: ch)) by (rewrite forallb_map; apply forallb_eq; intros; apply strat_erase). cbn [map] in Hy.
    destruct p; cbn [forallb] in *; rewrite ?Hs, ?Hy; try reflexivity. destruct c; reflexivity.
Qed.
Lemma mstrat_erase n : mstrat (erase n) = mstrat n.
Proof.
  unfold mstrat. rewrite ostrat_erase. f_equal. destruct n as [p l ch].
  assert (H : forall j, forallb (ostrat j) (map erase ch) = forallb (ostrat j) ch) by (intros j; rewrite forallb_map; apply forallb_eq; intros; apply ostrat_erase).
  destruct p; cbn [erase]; rewrite ?map_length, ?H; reflexivity.
Qed.
Lemma qstrat_erase n : qstrat (erase n) = qstrat n.
Proof.
  destruct n as [p l ch]. destruct p; try (apply mstrat_erase). destruct ch as [|m [|[p2 l2 ch2] ch]]; try (apply mstrat_erase).
  destruct p2; try (apply mstrat_erase). destruct ch2, ch; apply mstrat_erase.
Qed.

Section Strat.
  Variables (E : penv) (C : pcfg).
  Lemma strat_read :
    (forall ts n, sp_expr E C ts n -> (strat 0 n = true -> rd_level E C ts n) /\ (strat 1 n = true -> rd_term E C ts n) /\ (strat 2 n = true -> rd_factor E C ts n)) /\
    (forall sep ts ns, sp_exprs E C sep ts ns -> (sep = AND -> forallb (strat 2) ns = true -> rd_factors E C ts ns) /\ (sep = OR -> forallb (strat 1) ns = true -> rd_terms E C ts ns)).
  Proof.
    apply (sp_expr_mutind E C
      (fun ts n => (strat 0 n = true -> rd_level E C ts n) /\ (strat 1 n = true -> rd_term E C ts n) /\ (strat 2 n = true -> rd_factor E C ts n))
      (fun sep ts ns => (sep = AND -> forallb (strat 2) ns = true -> rd_factors E C ts ns) /\ (sep = OR -> forallb (strat 1) ns = true -> rd_terms E C ts ns))).
    - intros. assert (X : rd_factor E C (ta ++ o :: tr) (QN (PExpr q i op v fl) (span (ta ++ o :: tr)) [])) by (apply rf_basic; assumption).
      split; [|split]; intros _; [apply rl_one, rt_one|apply rt_one|]; exact X.
    - intros l ts r n Hl Hs (IH & _ & _) Hr. assert (X : strat 0 n = true -> rd_factor E C (l :: ts ++ [r]) (QN PExprGroup (span (l :: ts ++ [r])) [n])) by (intros H; apply rf_group; auto).
      cbn [strat forallb]. rewrite Bool.andb_true_r. split; [|split]; intros H; [apply rl_one, rt_one|apply rt_one|]; auto.
    - intros k ts n Hk Hs (_ & _ & IH). assert (X : strat 2 n = true -> rd_factor E C (k :: ts) (QN PNot (span (k :: ts)) [n])) by (intros H; apply rf_not; auto).
      cbn [strat forallb]. rewrite Bool.andb_true_r. split; [|split]; intros H; [apply rl_one, rt_one|apply rt_one|]; auto.
    - intros ts ns Hs [IH _] Hl _ _. cbn [strat Nat.leb andb]. split; [|split]; intros H; [apply rl_one, rt_and|apply rt_and|discriminate]; auto.
    - intros ts ns Hs [_ IH] Hl _. cbn [strat Nat.eqb andb]. split; [|split]; intros H; [apply rl_or|discriminate|discriminate]; auto.
    - intros sep ts n Hs (_ & IH1 & IH2). split; intros _; cbn [forallb]; rewrite Bool.andb_true_r; intros H; [apply rfs_one|apply rts_one]; auto.
    - intros sep ts n k ts' ns Hs (_ & IH1 & IH2) Hk Hss [IHa IHo]. split; intros ->; cbn [forallb]; intros H; apply Bool.andb_true_iff in H; destruct H; [apply rfs_more|apply rts_more]; auto.
  Qed.
  Lemma read_strat :
    (forall ts n, rd_level E C ts n -> strat 0 n = true) /\ (forall ts ns, rd_terms E C ts ns -> forallb (strat 1) ns = true) /\
    (forall ts n, rd_term E C ts n -> strat 1 n = true) /\ (forall ts ns, rd_factors E C ts ns -> forallb (strat 2) ns = true) /\
    (forall ts n, rd_factor E C ts n -> strat 2 n = true).
  Proof.
    apply (rd_level_mutind E C (fun ts n => strat 0 n = true) (fun ts ns => forallb (strat 1) ns = true) (fun ts n => strat 1 n = true)
      (fun ts ns => forallb (strat 2) ns = true) (fun ts n => strat 2 n = true)); intros; cbn [strat forallb Nat.leb Nat.eqb andb]; rewrite ?Bool.andb_true_r; auto.
    - apply strat_mono. assumption.
    - apply Bool.andb_true_iff. auto.
    - apply strat_mono. assumption.
    - apply Bool.andb_true_iff. auto.
  Qed.
  Lemma seg_child_strat n : strat 0 n = true -> match [n] with [QN PWildcard _ []] => true | _ => forallb (strat 0) [n] end = true.
  Proof. intros H. destruct n as [p l ch]. destruct p; cbn [forallb]; rewrite ?H; try reflexivity. discriminate. Qed.
  Lemma read_ostrat :
    (forall ts n, rd_item E C ts n -> ostrat 0 n = true) /\ (forall ts ns, rd_seq E C ts ns -> forallb (ostrat 0) ns = true) /\
    (forall ts n, rd_operand E C ts n -> ostrat 1 n = true) /\ (forall ts ns, rd_operands E C ts ns -> forallb (ostrat 1) ns = true) /\
    (forall ts n, rd_content E C ts n -> ostrat 2 n = true).
  Proof.
    apply (rd_item_mutind E C (fun ts n => ostrat 0 n = true) (fun ts ns => forallb (ostrat 0) ns = true) (fun ts n => ostrat 1 n = true)
      (fun ts ns => forallb (ostrat 1) ns = true) (fun ts n => ostrat 2 n = true)).
    - reflexivity.
    - reflexivity.
    - intros l te r tq n mn mx _ H _ _. apply (proj1 read_strat) in H. apply seg_child_strat in H. cbn [ostrat Nat.leb andb]. exact H.
    - intros. cbn [ostrat Nat.eqb andb forallb]. rewrite H1. reflexivity.
    - intros. cbn. rewrite H0. reflexivity.
    - intros. cbn. rewrite H0, H2. reflexivity.
    - intros ts [p l ch] Hi H Hc. destruct p; try discriminate Hc. exact H.
    - intros ts ns Hs H Hno. cbn [ostrat]. rewrite H, Bool.andb_true_r. destruct (lone_segment ns) eqn:Hl; [|reflexivity]. exfalso.
      destruct ns as [|[p l c] [|y ns]]; try discriminate Hl; destruct p; try discriminate Hl. apply (Hno _ eq_refl). reflexivity.
    - intros. cbn. rewrite H0. reflexivity.
    - intros. cbn. rewrite H0, H3. reflexivity.
    - intros. cbn. exact H0.
    - intros. cbn. exact H0.
  Qed.
  Lemma read_mstrat ts n : rd_main E C ts n -> mstrat n = true.
  Proof.
    intros H. unfold mstrat. apply Bool.orb_true_iff. inversion H as [? ? Hi|? ns Hs Hl|? ns Hs Hl]; subst.
    - left. eapply (proj1 read_ostrat). exact Hi.
    - right. apply Bool.andb_true_iff. split; [apply Nat.leb_le; exact Hl|]. eapply (proj1 (proj2 read_ostrat)). exact Hs.
    - right. eapply (proj1 (proj2 (proj2 (proj2 read_ostrat)))). exact Hs.
  Qed.
  Lemma read_qstrat ts n : rd_query E C ts n -> qstrat n = true.
  Proof.
    intros H. inversion H as [? ? ? Hm|? ? ? ? ? ? Hm]; subst.
    - pose proof (read_mstrat _ _ Hm) as Hx. destruct n as [p l ch]. destruct p; try exact Hx. discriminate Hx.
    - cbn. eapply read_mstrat. exact Hm.
  Qed.
  Lemma ostrat_read :
    (forall ts n, sp_item E C ts n -> (ostrat 0 n = true -> rd_item E C ts n) /\ (ostrat 1 n = true -> rd_item E C ts n /\ q_class n = CQuerySegment)) /\
    (forall ts ns, sp_seq E C ts ns -> forallb (ostrat 0) ns = true -> rd_seq E C ts ns) /\
    (forall ts ns, sp_alts E C ts ns -> forallb (ostrat 1) ns = true -> rd_operands E C ts ns) /\
    (forall ts n, sp_operand E C ts n -> ostrat 1 n = true -> rd_operand E C ts n) /\
    (forall ts n, sp_content E C ts n -> ostrat 2 n = true -> rd_content E C ts n).
  Proof.
    apply (sp_item_mutind E C (fun ts n => (ostrat 0 n = true -> rd_item E C ts n) /\ (ostrat 1 n = true -> rd_item E C ts n /\ q_class n = CQuerySegment)) (fun ts ns => forallb (ostrat 0) ns = true -> rd_seq E C ts ns)
      (fun ts ns => forallb (ostrat 1) ns = true -> rd_operands E C ts ns) (fun ts n => ostrat 1 n = true -> rd_operand E C ts n) (fun ts n => ostrat 2 n = true -> rd_content E C ts n)).
    - intros. split; intros _; [|split; [|reflexivity]]; apply ri_literal; assumption.
    - intros. split; intros _; [|split; [|reflexivity]]; apply ri_wildcard; assumption.
    - intros l te r tq n mn mx Hl Hn Hr Hq.
      assert (X : match [n] with [QN PWildcard _ []] => true | _ => forallb (strat 0) [n] end = true -> rd_item E C (l :: te ++ r :: tq) (QN (PSegment mn mx) (span (l :: te ++ r :: tq)) [n])).
      { intros H. apply ri_segment; auto. apply (proj1 strat_read _ _ Hn). destruct n as [p l' ch]. destruct p; try (cbn [forallb] in H; rewrite Bool.andb_true_r in H; exact H). inversion Hn. }
      cbn [ostrat Nat.leb andb]. split; intros H; [|split; [|reflexivity]]; apply X; exact H.
    - intros l tc r tq n mn mx Hl Hn IH Hr Hq. cbn [ostrat Nat.eqb andb forallb]. rewrite Bool.andb_true_r. split; intros H; [|discriminate]. apply ri_group; auto.
    - intros ts n Hn [IH _] H. cbn in H. rewrite Bool.andb_true_r in H. apply rq_one; auto.
    - intros ts n ts' ns Hn [IH _] Hs IH' H. cbn in H. apply Bool.andb_true_iff in H. destruct H. apply rq_more; auto.
    - intros ts n Hn IH H. cbn in H. rewrite Bool.andb_true_r in H. apply ros_one; auto.
    - intros ts n k ts' ns Hn IH Hk Hs IH' H. cbn in H. apply Bool.andb_true_iff in H. destruct H. apply ros_more; auto.
    - intros ts n Hn [_ IH] H. destruct (IH H) as [Hi Hc]. apply ro_segment; assumption.
    - intros ts ns Hs IH H. cbn [ostrat] in H. apply Bool.andb_true_iff in H. destruct H as [H1 H2]. apply ro_seq; auto. intros n -> Hc. destruct n as [p l ch]. destruct p; try discriminate Hc. discriminate H1.
    - intros ts ns Hs IH H. apply rc_seq. apply IH. exact H.
    - intros ts ns Hs IH Hl H. apply rc_or; auto.
  Qed.
  Lemma mstrat_read ts n : sp_main E C ts n -> mstrat n = true -> rd_main E C ts n.
  Proof.
    intros H Hm. unfold mstrat in Hm. apply Bool.orb_true_iff in Hm. inversion H as [? ? Hi|? ? Hc]; subst.
    - apply rm_item. apply (proj1 (proj1 ostrat_read _ _ Hi)). destruct Hm as [Hm|Hm]; [exact Hm|]. inversion Hi; subst; discriminate Hm.
    - inversion Hc as [? ns Hs|? ns Hs Hl]; subst.
      + destruct Hm as [Hm|Hm]; [discriminate|]. apply Bool.andb_true_iff in Hm. destruct Hm as [H1 H2]. apply rm_seq; [|apply Nat.leb_le; exact H1]. apply (proj1 (proj2 ostrat_read)); assumption.
      + destruct Hm as [Hm|Hm]; [discriminate|]. apply rm_or; [|exact Hl]. apply (proj1 (proj2 (proj2 ostrat_read))); assumption.
  Qed.
  Lemma qstrat_read ts n : sp_query E C ts n -> qstrat n = true -> rd_query E C ts n.
  Proof.
    intros H Hq. inversion H as [? ? ? Hm|? ? ? ? ? ? Hm]; subst.
    - apply ry_plain; [|assumption]. apply mstrat_read; [exact Hm|]. destruct n as [p l ch]. destruct p; try exact Hq. inversion Hm as [? ? Hi|? ? Hi]; inversion Hi.
    - apply ry_within; auto. apply mstrat_read; [exact Hm|exact Hq].
  Qed.
End Strat.

(** Every group and every segment below a documented tree holds one level (or empty brackets). *)
Definition documented (n : qnode) : Prop :=
  (exists k, strat k n = true) \/ (exists k, ostrat k n = true) \/ mstrat n = true \/ qstrat n = true \/
  q_children n = [].
Lemma forallb_in {A} (f : A -> bool) l x : forallb f l = true -> In x l -> f x = true.
Proof. rewrite forallb_forall. auto. Qed.
Lemma documented_child n c : documented n -> In c (q_children n) -> documented c.
Proof.
  destruct n as [p l ch]. cbn [q_children]. intros Hd Hc.
  assert (S : forall k, forallb (strat k) ch = true -> documented c) by (intros k H; left; exists k; eapply forallb_in; eassumption).
  assert (O : forall k, forallb (ostrat k) ch = true -> documented c) by (intros k H; right; left; exists k; eapply forallb_in; eassumption).
  assert (Ho : forall k, ostrat k (QN p l ch) = true -> documented c).
  { intros k H. destruct p; cbn [ostrat] in H; try discriminate H; try (apply Bool.andb_true_iff in H; destruct H as [_ H]); eauto.
    - destruct k as [|[|k]]; [discriminate| |eauto]. apply Bool.andb_true_iff in H. destruct H. eauto.
    - destruct ch as [|[p' l' ch'] [|y ch]]; [destruct Hc| |]; [destruct p'; eauto|].
      + destruct ch'; [|discriminate]. destruct Hc as [<-|[]]. right. right. right. right. reflexivity.
      + destruct p'; eauto. destruct ch'; discriminate H. }
  assert (Hm : mstrat (QN p l ch) = true -> documented c).
  { unfold mstrat. intros H. apply Bool.orb_true_iff in H. destruct H as [H|H]; [eauto|]. destruct p; try discriminate H; eauto. apply Bool.andb_true_iff in H. destruct H. eauto. }
  destruct Hd as [(k & H)|[(k & H)|[H|[H|H]]]]; eauto.
  - destruct p; cbn [strat] in H; try discriminate H; try (apply Bool.andb_true_iff in H; destruct H as [_ H]); eauto. destruct ch; [destruct Hc|discriminate].
  - destruct p; eauto. destruct ch as [|m [|[p2 l2 ch2] ch]]; eauto. destruct p2; eauto. destruct ch2, ch; eauto. cbn [qstrat] in H.
    destruct Hc as [<-|[<-|[]]]; [right; right; left; exact H|]. right. right. right. right. reflexivity.
  - cbn in H. subst. destruct Hc.
Qed.
Lemma documented_sub m n : subnode m n -> documented n -> documented m.
Proof. induction 1 as [|p l ch c Hin _ IH]; intros H; [exact H|]. apply IH. eapply documented_child; [exact H|exact Hin]. Qed.
Lemma documented_level m c : documented m -> q_class m = CExpressionGroup \/ q_class m = CQuerySegment -> q_children m = [c] ->
  strat 0 c = true \/ q_class c = CExpressionWildcard.
Proof.
  destruct m as [p l ch]. cbn [q_children]. intros Hd Hc ->.
  destruct p; try (destruct Hc; discriminate).
  - assert (H : forallb (strat 0) [c] = true -> strat 0 c = true \/ q_class c = CExpressionWildcard) by (cbn; rewrite Bool.andb_true_r; auto).
    destruct Hd as [(k & Hd)|[(k & Hd)|[Hd|[Hd|Hd]]]]; try discriminate Hd; auto.
  - assert (H : match [c] with [QN PWildcard _ []] => true | _ => forallb (strat 0) [c] end = true -> strat 0 c = true \/ q_class c = CExpressionWildcard).
    { destruct c as [p' l' ch']. destruct p'; cbn [forallb]; rewrite ?Bool.andb_true_r; auto. }
    assert (Ho : forall k, ostrat k (QN (PSegment min_occurs max_occurs) l [c]) = true -> strat 0 c = true \/ q_class c = CExpressionWildcard).
    { intros k Hk. cbn [ostrat] in Hk. apply Bool.andb_true_iff in Hk. destruct Hk. auto. }
    assert (Hm : mstrat (QN (PSegment min_occurs max_occurs) l [c]) = true -> strat 0 c = true \/ q_class c = CExpressionWildcard).
    { unfold mstrat. intros Hx. apply Bool.orb_true_iff in Hx. destruct Hx as [Hx|Hx]; [eauto|discriminate]. }
    destruct Hd as [(k & Hd)|[(k & Hd)|[Hd|[Hd|Hd]]]]; try discriminate Hd; eauto.
Qed.
