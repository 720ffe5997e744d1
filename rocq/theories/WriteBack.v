(** Every documented result is writable. *)
From Coq Require Import String.
From Verif Require Import Base Regex RegexFacts LexRules Lexer LexSpec LexFacts LitSpec LexRuleFacts LexThms LexWs Ast Builder ValueSpec ValueFacts SpellSpec
  TreeSpec TreeFacts ParseFacts ReadSpec ReadStrat WriteSpec WriteFacts WriteTree.
From Coq Require Import ZifyBool ZifyN.
Local Open Scope Z_scope.

Definition letterb (c : N) : bool := (((97 <=? c) && (c <=? 122)) || ((65 <=? c) && (c <=? 90)))%N.
Lemma letters w : forallb letterb w = true -> Forall is_letter w.
Proof. intros H. rewrite forallb_forall in H. apply Forall_forall. intros c Hc. specialize (H c Hc). unfold letterb in H. unfold is_letter. lia. Qed.
Lemma rule_name w ty : first_rule w ty -> In ty [IDENTIFIER; WITHIN; SIMPLE_WITHIN_SCOPE; REGEXP_FLAGS] -> is_name w.
Proof.
  assert (X : forall c m d, is_letter c -> is_alnum d -> Forall (fun x => is_alnum x \/ x = 45%N) m -> is_name (c :: m ++ [d])).
  { intros c m d Hc Hd Hm. exists c, (m ++ [d]). split; [reflexivity|]. split; [exact Hc|]. right. exists m, d. auto. }
  assert (L : forall c r, Forall is_letter (c :: r) -> is_name (c :: r)).
  { intros c r H. inversion H as [|? ? Hc Hr]; subst. destruct r as [|d m _] using rev_ind; [exists c, []; auto|]. apply Forall_app in Hr. destruct Hr as [Hm Hd]. inversion Hd; subst.
    apply X; [exact Hc|left; assumption|]. eapply Forall_impl; [|exact Hm]. intros x Hx. left. left. exact Hx. }
  assert (W : forall w, w <> [] -> Forall is_letter w -> is_name w) by (intros [|c r] Hn Hf; [congruence|apply L; exact Hf]).
  intros Hf Hn. pose proof (first_rule_text _ _ Hf) as Ht. cbn [In] in Hn. destruct Hn as [<-|[<-|[<-|[<-|[]]]]]; cbn [text_ok] in Ht.
  - assert (H : lang (Cat (set id_first) (opt (Cat (Rep (set id_char)) (set id_last)))) w) by (eapply first_rule_unique_rule; [exact Hf|cbn; tauto]).
    apply lang_cat in H. destruct H as (x & y & -> & Hx & Hy). apply lang_set in Hx. destruct Hx as (c & -> & Hc). assert (Hl : is_letter c) by (unfold in_ranges in Hc; cbn in Hc; unfold is_letter; lia).
    unfold opt in Hy. apply lang_bar in Hy. destruct Hy as [Hy|Hy]; [|apply lang_eps in Hy; subst y; exists c, []; auto].
    apply lang_cat in Hy. destruct Hy as (m & z & -> & Hm & Hz). apply lang_set in Hz. destruct Hz as (d & -> & Hd). apply lang_rep_set in Hm. apply X; [exact Hl|unfold in_ranges in Hd; cbn in Hd; unfold is_alnum, is_letter; lia|].
    eapply Forall_impl; [|exact Hm]. intros a Ha. cbv beta in Ha. unfold in_ranges in Ha. cbn in Ha. unfold is_alnum, is_letter. lia.
  - subst w. apply W; [discriminate|]. apply letters. reflexivity.
  - unfold scope_words in Ht. cbn [map In] in Ht. repeat (destruct Ht as [<-|Ht]; [apply W; [discriminate|apply letters; reflexivity]|]). destruct Ht.
  - destruct Ht as [Hw Ht]. apply W; [exact Hw|]. eapply Forall_impl; [|exact Ht]. intros c Hc. unfold is_flag_char in Hc. cbn in Hc. unfold is_letter. repeat (destruct Hc as [<-|Hc]; [lia|]). destruct Hc.
Qed.
Lemma means_pystr w v : literal_means w v -> is_pystr v.
Proof.
  intros (q & es & _ & Hok & _ & Hv). revert v Hv. induction Hok as [|e es He _ IH]; cbn [lit_value]; intros v Hv; [injection Hv as <-; constructor|].
  destruct (elem_value e) as [a|] eqn:Ha; [|discriminate]. destruct (lit_value es) as [b|] eqn:Hb; [|discriminate]. injection Hv as <-. apply Forall_app. split; [|apply IH; reflexivity].
  destruct e as [c|c|k ds]; cbn [elem_value elem_ok] in *.
  - injection Ha as <-. constructor; [apply He|constructor].
  - assert (Hc : (c <= 1114111)%N) by (unfold simple_escape_chars in He; cbn in He; repeat (destruct He as [<-|He]; [lia|]); destruct He).
    destruct (char_in c _); [injection Ha as <-; repeat constructor; exact Hc|]. destruct (c =? 110)%N; [injection Ha as <-; repeat constructor; lia|]. destruct (c =? 116)%N; [injection Ha as <-; repeat constructor; lia|].
    destruct (char_in c _); [|discriminate]. injection Ha as <-. repeat constructor; [lia|exact Hc].
  - destruct (hex_value ds <=? 1114111)%N eqn:Hh; [|discriminate]. injection Ha as <-. constructor; [lia|constructor].
Qed.

Section Back.
  Variables (E : penv) (C : pcfg).
  Hypothesis Hnorm : forall v, is_pystr v -> is_pystr (normalised E C v) /\ normalised E C (normalised E C v) = normalised E C v.
  Definition tk (t : token) : Prop := typed t /\ (t_type t = INTEGER -> int_ok E (t_text t)).
  Lemma tk_name t : tk t -> name_tok t -> is_name (t_text t).
  Proof. intros [Ht _] Hn. eapply rule_name; [exact Ht|exact Hn]. Qed.
  Lemma attr_named ta q i : sp_attr ta q i -> Forall tk ta -> is_name i /\ (forall w, q = Some w -> is_name w).
  Proof.
    intros H Ht. inversion H; subst; rewrite Forall_forall in Ht.
    - split; [apply tk_name; [apply Ht; left; reflexivity|assumption]|discriminate].
    - split; [apply tk_name; [apply Ht; right; right; left; reflexivity|assumption]|]. intros w Hw. injection Hw as <-. apply tk_name; [apply Ht; left; reflexivity|assumption].
  Qed.
  Lemma regex_back ts v fl : sp_regex E C ts v fl -> Forall tk ts -> regex_ok E C v /\ flags_writable fl.
  Proof.
    intros H Ht. inversion H as [? v0 ? Hm|? ? f v0 S Hk Hs Hfl Hm Hd Hc]; subst; (split; [apply Hnorm; eapply means_pystr; exact Hm|]).
    - intros S HS. discriminate.
    - intros S' HS. injection HS as <-. split; [|exact Hc]. intros ->. rewrite Forall_forall in Ht. destruct (Ht f) as [Hty _]; [right; right; left; reflexivity|].
      unfold typed in Hty. rewrite Hfl in Hty. apply first_rule_text in Hty. cbn [text_ok] in Hty. destruct Hty as [Hne Hall]. destruct (t_text f) as [|c r] eqn:Hx; [congruence|]. inversion Hall as [|? ? Hfc _]; subst.
      unfold is_flag_char in Hfc. cbn in Hfc.
      assert (exists fg, flag_meaning c = Some fg) as (fg & Hfg) by (repeat (destruct Hfc as [<-|Hfc]; [eexists; reflexivity|]); destruct Hfc).
      assert (Hin : flag_in fg no_flags = true) by (apply Hd; exists c; split; [left; reflexivity|exact Hfg]). destruct fg; discriminate Hin.
  Qed.
  Lemma int_back n t : tk t -> int_tok n t -> 0 <= n /\ int_ok E (dec n).
  Proof.
    intros [Ht Hi] [Hty Hv]. specialize (Hi Hty). unfold typed in Ht. rewrite Hty in Ht. apply first_rule_text in Ht. cbn [text_ok] in Ht. destruct Ht as [Hn Hd]. destruct (dec_shortest _ Hn Hd) as [H0 Hl]. rewrite Hv in *. split; [exact H0|].
    unfold int_ok, zlen in *. lia.
  Qed.
  Lemma zero_ok n t : tk t -> int_tok n t -> int_ok E (dec 0).
  Proof.
    intros [Ht Hi] [Hty Hv]. specialize (Hi Hty). unfold typed in Ht. rewrite Hty in Ht. apply first_rule_text in Ht. cbn [text_ok] in Ht. destruct Ht as [Hn _].
    unfold int_ok, zlen in *. destruct (t_text t); [congruence|]. cbn [List.length] in *. change (List.length (dec 0)) with 1%nat. lia.
  Qed.
  Lemma quantified_back tq mn mx : quantified tq mn mx -> Forall tk tq -> bounds_ok E mn mx.
  Proof.
    intros H Ht. unfold bounds_ok. rewrite Forall_forall in Ht. inversion H as [|t Hk|t Hk|t Hk|l i r n Hl Hi Hr|l i c r n Hl Hi Hc Hr|l c i r m Hl Hc Hi Hr|l i c j r n m Hl Hi Hc Hj Hr Hle]; subst; unfold OCCURS_UNBOUNDED; auto 7.
    - destruct (int_back _ _ (Ht i ltac:(cbn; auto)) Hi). do 3 right. split; [assumption|]. split; [assumption|]. right. split; [lia|assumption].
    - destruct (int_back _ _ (Ht i ltac:(cbn; auto)) Hi). do 3 right. auto.
    - destruct (int_back _ _ (Ht i ltac:(cbn; auto)) Hi). do 3 right. split; [lia|]. split; [eapply zero_ok; [|exact Hi]; apply Ht; cbn; auto|]. right. split; assumption.
    - destruct (int_back _ _ (Ht i ltac:(cbn; auto)) Hi). destruct (int_back _ _ (Ht j ltac:(cbn; auto)) Hj). do 3 right. split; [assumption|]. split; [assumption|]. right. split; assumption.
  Qed.
  Notation nodes_ok := (nodes_ok E C).
  Definition both (n : qnode) : Prop := nodes_ok n /\ named n.
  Lemma nodes_ok_node p l ch : node_ok E C (QN p l ch) -> Forall nodes_ok ch -> nodes_ok (QN p l ch).
  Proof. intros H Hf m Hm. inversion Hm; subst; [exact H|]. rewrite Forall_forall in Hf. eapply Hf; eassumption. Qed.
  Lemma both_nodes ns : Forall both ns -> Forall nodes_ok ns /\ forall c, In c ns -> named c.
  Proof. intros H. split; [eapply Forall_impl; [|exact H]; intros x Hx; apply Hx|]. rewrite Forall_forall in H. intros c Hc. apply H. exact Hc. Qed.
  Ltac fa := repeat match goal with H : Forall tk (_ ++ _) |- _ => apply Forall_app in H; destruct H | H : Forall tk (_ :: _) |- _ => apply Forall_cons_iff in H; destruct H end.
  Lemma level_back :
    (forall ts n, rd_level E C ts n -> Forall tk ts -> both n) /\ (forall ts ns, rd_terms E C ts ns -> Forall tk ts -> Forall both ns) /\
    (forall ts n, rd_term E C ts n -> Forall tk ts -> both n) /\ (forall ts ns, rd_factors E C ts ns -> Forall tk ts -> Forall both ns) /\
    (forall ts n, rd_factor E C ts n -> Forall tk ts -> both n).
  Proof.
    apply (rd_level_mutind E C (fun ts n => Forall tk ts -> both n) (fun ts ns => Forall tk ts -> Forall both ns) (fun ts n => Forall tk ts -> both n) (fun ts ns => Forall tk ts -> Forall both ns) (fun ts n => Forall tk ts -> both n)); intros; fa; auto.
    - match goal with H : _ -> Forall both _ |- _ => destruct (both_nodes _ (H ltac:(assumption))) end. split; [|exact I]. apply nodes_ok_node; [split; [assumption|auto]|assumption].
    - match goal with H : _ -> Forall both _ |- _ => destruct (both_nodes _ (H ltac:(assumption))) end. split; [|exact I]. apply nodes_ok_node; [split; [assumption|auto]|assumption].
    - split; [apply nodes_ok_node; [split; [eapply regex_back; eassumption|intros c []]|constructor]|]. eapply attr_named; eassumption.
    - match goal with H : _ -> both n |- _ => destruct (H ltac:(assumption)) end. split; [|exact I]. apply nodes_ok_node; [split; [reflexivity|intros c [<-|[]]; auto]|auto].
    - match goal with H : _ -> both n |- _ => destruct (H ltac:(assumption)) end. split; [|exact I]. apply nodes_ok_node; [split; [reflexivity|intros c [<-|[]]; auto]|auto].
  Qed.
  Lemma item_back :
    (forall ts n, rd_item E C ts n -> Forall tk ts -> both n) /\ (forall ts ns, rd_seq E C ts ns -> Forall tk ts -> Forall both ns /\ (1 <= List.length ns)%nat) /\
    (forall ts n, rd_operand E C ts n -> Forall tk ts -> both n) /\ (forall ts ns, rd_operands E C ts ns -> Forall tk ts -> Forall both ns) /\
    (forall ts n, rd_content E C ts n -> Forall tk ts -> both n).
  Proof.
    apply (rd_item_mutind E C (fun ts n => Forall tk ts -> both n) (fun ts ns => Forall tk ts -> Forall both ns /\ (1 <= List.length ns)%nat) (fun ts n => Forall tk ts -> both n) (fun ts ns => Forall tk ts -> Forall both ns) (fun ts n => Forall tk ts -> both n)); intros; fa.
    - split; [|exact I]. apply nodes_ok_node; [split; [split; [reflexivity|eapply quantified_back; eassumption]|]|].
      + intros c [<-|[]]. right. split; [reflexivity|]. cbn [bare]. assert (Hr : forall a, str_eqb a a = true) by (induction a as [|x a IH]; cbn; [reflexivity|]; rewrite N.eqb_refl; exact IH). rewrite Hr. destruct (default_operator C); reflexivity.
      + constructor; [|constructor]. apply nodes_ok_node; [split; [eapply regex_back; eassumption|intros c []]|constructor].
    - split; [|exact I]. apply nodes_ok_node; [split; [split; [reflexivity|eapply quantified_back; eassumption]|]|].
      + intros c [<-|[]]. left. exact I.
      + constructor; [|constructor]. apply nodes_ok_node; [split; [exact I|intros c []]|constructor].
    - match goal with H : rd_level E C _ _ |- _ => destruct (proj1 level_back _ _ H ltac:(assumption)) end. split; [|exact I]. apply nodes_ok_node; [split; [split; [reflexivity|eapply quantified_back; eassumption]|intros c [<-|[]]; auto]|auto].
    - match goal with H : _ -> both n |- _ => destruct (H ltac:(assumption)) end. split; [|exact I]. apply nodes_ok_node; [split; [split; [reflexivity|eapply quantified_back; eassumption]|intros c [<-|[]]; auto]|auto].
    - split; [auto|cbn; lia].
    - match goal with H : _ -> Forall both _ /\ _ |- _ => destruct (H ltac:(assumption)) end. split; [auto|cbn; lia].
    - auto.
    - match goal with H : _ -> Forall both _ /\ _ |- _ => destruct (H ltac:(assumption)) as [Hb ?] end. destruct (both_nodes _ Hb). split; [|exact I]. apply nodes_ok_node; [split; [assumption|auto]|assumption].
    - auto.
    - auto.
    - match goal with H : _ -> Forall both _ /\ _ |- _ => destruct (H ltac:(assumption)) as [Hb ?] end. destruct (both_nodes _ Hb). split; [|exact I]. apply nodes_ok_node; [split; [assumption|auto]|assumption].
    - match goal with H : _ -> Forall both _ |- _ => destruct (both_nodes _ (H ltac:(assumption))) end. split; [|exact I]. apply nodes_ok_node; [split; [assumption|auto]|assumption].
  Qed.
  Lemma main_back ts n : rd_main E C ts n -> Forall tk ts -> both n.
  Proof.
    intros H Ht. inversion H as [? ? Hi|? ns Hs Hl|? ns Hs Hl]; subst.
    - eapply (proj1 item_back); eassumption.
    - destruct (proj1 (proj2 item_back) _ _ Hs Ht) as [Hb ?]. destruct (both_nodes _ Hb). split; [|exact I]. apply nodes_ok_node; [split; [assumption|auto]|assumption].
    - destruct (both_nodes _ (proj1 (proj2 (proj2 (proj2 item_back))) _ _ Hs Ht)). split; [|exact I]. apply nodes_ok_node; [split; [assumption|auto]|assumption].
  Qed.
  Lemma query_back ts e n : rd_query E C (ts ++ [e]) n -> Forall tk ts -> writable E C n.
  Proof.
    intros H Ht. split; [eapply read_qstrat; exact H|]. inversion H as [ts1 ? e1 Hm He Heq|ts1 m w k sc e1 Hm Hw Hk Hsc He Heq]; subst.
    - apply app_inj_tail in Heq. destruct Heq as [-> ->]. eapply main_back; eassumption.
    - replace (ts1 ++ [w; k; e1]) with ((ts1 ++ [w; k]) ++ [e1]) in Heq by (rewrite <- app_assoc; reflexivity). apply app_inj_tail in Heq. destruct Heq as [<- ->]. apply Forall_app in Ht. destruct Ht as [Ht _].
      destruct (main_back _ _ Hm Ht) as [H1 H2]. change (nodes_ok (QN PWithWithin (span (ts1 ++ [w; k])) [m; QN (PSimpleWithin sc) (span [k]) []])).
      apply nodes_ok_node; [split; [exact I|]|].
      + intros c [<-|[<-|[]]]; left; [exact H2|exact I].
      + constructor; [exact H1|]. constructor; [|constructor]. apply nodes_ok_node; [split; [exact I|intros c []]|constructor].
  Qed.
End Back.
