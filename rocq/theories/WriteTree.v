(** Writing a documented tree and reading it back: trees. *)
From Coq Require Import String.
From Verif Require Import Base Regex RegexFacts LexRules Lexer LexSpec LexFacts LitSpec LexRuleFacts LexThms LexWs Ast Builder ValueSpec ValueFacts SpellSpec
  TreeSpec TreeFacts ParseFacts ReadSpec ReadStrat WriteSpec WriteFacts.
Local Open Scope Z_scope.

Lemma str_eqb_true : forall a b, str_eqb a b = true -> a = b.
Proof. induction a as [|x a IH]; intros [|y b] H; cbn in H; try discriminate; [reflexivity|]. apply Bool.andb_true_iff in H. destruct H as [H1 H2]. apply N.eqb_eq in H1. rewrite H1, (IH _ H2). reflexivity. Qed.

Section Tree.
  Variables (E : penv) (C : pcfg).
  Notation words := (words C). Notation good := (good E).
  Definition nodes_ok (n : qnode) : Prop := forall m, subnode m n -> node_ok E C m.
  Ltac fixed := solve [eapply good_fixed; [vm_compute; reflexivity|discriminate|discriminate]].
  Lemma nodes_ok_child p l ch c : nodes_ok (QN p l ch) -> In c ch -> nodes_ok c.
  Proof. intros H Hc m Hm. apply H. eapply sub_child; eassumption. Qed.
  Lemma child_named p l ch c : nodes_ok (QN p l ch) -> class_of p <> CQuerySegment -> In c ch -> named c.
  Proof. intros H Hp Hc. destruct (H _ (sub_here _)) as [_ Hn]. destruct (Hn c Hc) as [Hx|[Hx _]]; [exact Hx|contradiction]. Qed.
  Lemma good_concat l : Forall (Forall good) l -> Forall good (concat l).
  Proof. induction 1; cbn; [constructor|]. apply Forall_app. auto. Qed.
  Lemma good_between sep l : good sep -> Forall (Forall good) l -> Forall good (between sep l).
  Proof. intros Hs. induction 1 as [|a l Ha Hl IH]; cbn [between]; [constructor|]. destruct l as [|b l]; [exact Ha|]. apply Forall_app. split; [exact Ha|]. constructor; [exact Hs|exact IH]. Qed.
  Lemma good_op o : good (op_text o).
  Proof. destruct o; fixed. Qed.
  Lemma seg_words mn mx l ch : words (QN (PSegment mn mx) l ch) =
    match ch with
    | [QN (PExpr None i op v fl) l' cs] => if bare C (QN (PExpr None i op v fl) l' cs) then regex_words v fl else u "[" :: concat (map words ch) ++ [u "]"]
    | _ => u "[" :: concat (map words ch) ++ [u "]"]
    end ++ quantifier_words mn mx.
  Proof. reflexivity. Qed.
  Lemma seg_cases mn mx l c : nodes_ok (QN (PSegment mn mx) l [c]) ->
    (exists i op v fl l' cs, c = QN (PExpr None i op v fl) l' cs /\ i = default_identifier C /\ op = default_operator C /\ words (QN (PSegment mn mx) l [c]) = regex_words v fl ++ quantifier_words mn mx) \/
    (named c /\ words (QN (PSegment mn mx) l [c]) = (u "[" :: words c ++ [u "]"]) ++ quantifier_words mn mx).
  Proof.
    intros H. rewrite seg_words. destruct (H _ (sub_here _)) as [_ Hn]. specialize (Hn c (or_introl eq_refl)). cbn [map concat]. rewrite app_nil_r.
    destruct c as [p l' cs]. destruct p as [q i op v fl| | | | | | | | | | | ]; try (right; split; [exact I|reflexivity]).
    destruct q as [q|].
    - right. destruct Hn as [Hn|[_ Hn]]; [|discriminate]. split; [exact Hn|reflexivity].
    - destruct (bare C (QN (PExpr None i op v fl) l' cs)) eqn:Hb.
      + left. exists i, op, v, fl, l', cs. cbn [bare] in Hb. apply Bool.andb_true_iff in Hb. destruct Hb as [H1 H2]. apply str_eqb_true in H1. split; [reflexivity|]. split; [exact H1|]. split; [|reflexivity].
        destruct op, (default_operator C); congruence.
      + right. destruct Hn as [Hn|[_ Hn]]; [split; [exact Hn|reflexivity]|congruence].
  Qed.
  Lemma good_words n : nodes_ok n -> named n -> Forall good (words n).
  Proof.
    induction n as [p l ch IH] using qnode_ind'. intros Hok Hnm. rewrite Forall_forall in IH.
    assert (Hc : class_of p <> CQuerySegment -> Forall (Forall good) (map words ch)).
    { intros Hp. apply Forall_map. apply Forall_forall. intros c Hin. apply IH; [exact Hin|eapply nodes_ok_child; eassumption|eapply child_named; eassumption]. }
    pose proof (Hok _ (sub_here _)) as [Hnode _].
    destruct p as [q i op v fl| | | | | | | | |mn mx|mn mx|sc]; cbn [WriteSpec.words].
    - destruct Hnode as [Hv Hf]. destruct Hnm as [Hi Hq]. apply Forall_app. split; [|constructor; [apply good_name; exact Hi|constructor; [apply good_op|eapply good_regex; eassumption]]].
      destruct q as [w|]; [|constructor]. constructor; [apply good_name; apply Hq; reflexivity|]. constructor; [fixed|constructor].
    - constructor.
    - constructor; [fixed|]. apply Forall_app. split; [apply good_concat, Hc; discriminate|constructor; [fixed|constructor]].
    - constructor; [fixed|]. apply good_concat, Hc. discriminate.
    - apply good_between; [fixed|apply Hc; discriminate].
    - apply good_between; [fixed|apply Hc; discriminate].
    - apply good_between; [fixed|apply Hc; discriminate].
    - apply good_concat, Hc. discriminate.
    - apply good_between; [fixed|apply Hc; discriminate].
    - destruct Hnode as [Hlen Hb]. destruct ch as [|c [|c' ch]]; try discriminate Hlen.
      change (Forall good (words (QN (PSegment mn mx) l [c]))).
      assert (Hq := good_quantifier E _ _ Hb). destruct (seg_cases mn mx l c Hok) as [(i & op & v & fl & l' & cs & -> & _ & _ & ->)|[Hn ->]].
      + apply Forall_app. split; [|exact Hq]. destruct (nodes_ok_child _ _ _ _ Hok (or_introl eq_refl) _ (sub_here _)) as [[Hv Hf] _]. eapply good_regex; eassumption.
      + apply Forall_app. split; [|exact Hq]. constructor; [fixed|]. apply Forall_app. split; [|constructor; [fixed|constructor]]. apply IH; [left; reflexivity| |exact Hn]. eapply nodes_ok_child; [exact Hok|left; reflexivity].
    - destruct Hnode as [_ Hb]. constructor; [fixed|]. apply Forall_app. split; [apply good_concat, Hc; discriminate|]. constructor; [fixed|]. apply good_quantifier. exact Hb.
    - constructor; [|constructor]. destruct sc; fixed.
  Qed.

  (** ** Between brackets *)
  Notation writes_expr c := (forall ts, spelt ts (words c) -> exists a, sp_expr E C ts a /\ erase a = erase c).
  Lemma write_exprs sep SEP ns : first_type lex_rules sep = Some SEP -> ns <> [] -> Forall (fun c => writes_expr c) ns ->
    forall ts, spelt ts (between sep (map words ns)) -> exists xs, sp_exprs E C SEP ts xs /\ map erase xs = map erase ns.
  Proof.
    intros Hsep. induction ns as [|c ns IH]; [congruence|]. intros _ Hf ts Hs. inversion Hf as [|? ? Hc Hns]; subst. destruct ns as [|c' ns].
    - cbn in Hs. destruct (Hc ts Hs) as (a & Ha & He). exists [a]. split; [apply ses_one; exact Ha|]. cbn. rewrite He. reflexivity.
    - change (between sep (map words (c :: c' :: ns))) with (words c ++ sep :: between sep (map words (c' :: ns))) in Hs.
      apply spelt_app in Hs. destruct Hs as (x & y & -> & Hx & Hy). apply spelt_cons in Hy. destruct Hy as (k & y' & -> & Hk & Htk & Hy).
      destruct (Hc x Hx) as (a & Ha & He). destruct (IH ltac:(discriminate) Hns y' Hy) as (xs & Hxs & Hex). exists (a :: xs). split.
      + apply ses_more; [exact Ha|eapply typed_is; eassumption|exact Hxs].
      + cbn [map] in *. rewrite He, Hex. reflexivity.
  Qed.
  Lemma erased_in xs ns a : map erase xs = map erase ns -> In a xs -> exists c, In c ns /\ q_payload a = q_payload c.
  Proof.
    intros He Ha. assert (H : In (erase a) (map erase ns)) by (rewrite <- He; apply in_map; exact Ha). apply in_map_iff in H. destruct H as (c & Hc & Hin).
    exists c. split; [exact Hin|]. rewrite <- (erase_payload a), <- (erase_payload c), Hc. reflexivity.
  Qed.
  Lemma write_expr n : strat 0 n = true -> nodes_ok n -> named n -> writes_expr n.
  Proof.
    induction n as [p l ch IH] using qnode_ind'. intros Hst Hok Hnm ts Hs. rewrite Forall_forall in IH.
    pose proof (Hok _ (sub_here _)) as [Hnode _].
    assert (K : forall k c, class_of p <> CQuerySegment -> In c ch -> forallb (strat k) ch = true -> (k <= 2)%nat -> writes_expr c).
    { intros k c Hp Hc Hk Hle. apply IH; [exact Hc| |eapply nodes_ok_child; eassumption|eapply child_named; eassumption].
      apply (forallb_in _ _ _ Hk) in Hc. destruct (strat_mono c) as [M2 M1]. destruct k as [|[|[|k]]]; [exact Hc|auto|auto|lia]. }
    destruct p as [q i op v fl| | | | | | | | | | | ]; try discriminate Hst; cbn [WriteSpec.words strat] in Hs, Hst.
    - destruct ch; [|discriminate]. destruct Hnode as [Hv Hf]. destruct Hnm as [Hi Hq].
      apply spelt_app in Hs. destruct Hs as (x & y & -> & Hx & Hy). apply spelt_cons in Hy. destruct Hy as (ti & y1 & -> & Hti & Htti & Hy). apply spelt_cons in Hy. destruct Hy as (o & tr & -> & Ho & Hto & Hy).
      assert (Hname : name_tok ti) by (apply name_typed; [exact Htti|rewrite Hti; exact Hi]).
      assert (Hop : sp_op o op) by (destruct op; constructor; eapply typed_is; try eassumption; vm_compute; reflexivity).
      assert (Hr : sp_regex E C tr v fl) by (eapply spelt_regex; eassumption).
      assert (Ha : sp_attr (x ++ [ti]) q i).
      { destruct q as [w|].
        - apply spelt_cons in Hx. destruct Hx as (tq & x1 & -> & Htq & Httq & Hx). apply spelt_cons in Hx. destruct Hx as (c & x2 & -> & Hc & Htc & Hx). apply spelt_nil in Hx. subst x2. cbn [app].
          rewrite <- Htq, <- Hti. apply sa_qual; [apply name_typed; [exact Httq|rewrite Htq; apply Hq; reflexivity]|eapply typed_is; [exact Htc|exact Hc|vm_compute; reflexivity]|exact Hname].
        - apply spelt_nil in Hx. subst x. cbn [app]. rewrite <- Hti. apply sa_plain. exact Hname. }
      replace (x ++ ti :: o :: tr) with ((x ++ [ti]) ++ o :: tr) by (rewrite <- app_assoc; reflexivity).
      eexists. split; [apply se_basic; eassumption|reflexivity].
    - destruct ch as [|c [|c' ch]]; try discriminate Hnode. cbn [map concat] in Hs. rewrite app_nil_r in Hs.
      apply spelt_cons in Hs. destruct Hs as (a & y & -> & Ha & Hta & Hs). apply spelt_app in Hs. destruct Hs as (y1 & y2 & -> & Hy & Hs). apply spelt_cons in Hs. destruct Hs as (b & y3 & -> & Hb & Htb & Hs). apply spelt_nil in Hs. subst y3.
      destruct (K 0%nat c ltac:(discriminate) (or_introl eq_refl) Hst ltac:(lia) y1 Hy) as (x & Hx & He).
      eexists. split; [apply se_group; [eapply typed_is; [exact Hta|exact Ha|vm_compute; reflexivity]|exact Hx|eapply typed_is; [exact Htb|exact Hb|vm_compute; reflexivity]]|]. cbn. rewrite He. reflexivity.
    - destruct ch as [|c [|c' ch]]; try discriminate Hnode. cbn [map concat] in Hs. rewrite app_nil_r in Hs.
      apply spelt_cons in Hs. destruct Hs as (a & y & -> & Ha & Hta & Hs).
      destruct (K 2%nat c ltac:(discriminate) (or_introl eq_refl) Hst ltac:(lia) y Hs) as (x & Hx & He).
      eexists. split; [apply se_not; [eapply typed_is; [exact Hta|exact Ha|vm_compute; reflexivity]|exact Hx]|]. cbn. rewrite He. reflexivity.
    - cbn [Nat.leb andb] in Hst. assert (Hne : ch <> []) by (intros ->; cbn in Hnode; lia).
      destruct (write_exprs (u "&") AND ch eq_refl Hne ltac:(apply Forall_forall; intros c Hc; eapply (K 2%nat); [discriminate|exact Hc|exact Hst|lia]) ts Hs) as (xs & Hxs & He).
      assert (Hlen : List.length xs = List.length ch) by (rewrite <- (map_length erase xs), He, map_length; reflexivity).
      assert (Hpay : forall a, In a xs -> q_payload a <> PAnd /\ q_payload a <> POr).
      { intros a Ha. destruct (erased_in _ _ _ He Ha) as (c & Hc & ->). apply (forallb_in _ _ _ Hst) in Hc. destruct c as [pc lc cc]. destruct pc; try discriminate Hc; split; discriminate. }
      eexists. split; [apply se_and; [exact Hxs|rewrite Hlen; exact Hnode|intros a Ha; apply Hpay; exact Ha|]|cbn; rewrite He; reflexivity].
      intros a Ha. apply Hpay. destruct xs; [discriminate|]. injection Ha as ->. left. reflexivity.
    - cbn [Nat.eqb andb] in Hst. assert (Hne : ch <> []) by (intros ->; cbn in Hnode; lia).
      destruct (write_exprs (u "|") OR ch eq_refl Hne ltac:(apply Forall_forall; intros c Hc; eapply (K 1%nat); [discriminate|exact Hc|exact Hst|lia]) ts Hs) as (xs & Hxs & He).
      assert (Hlen : List.length xs = List.length ch) by (rewrite <- (map_length erase xs), He, map_length; reflexivity).
      eexists. split; [apply se_or; [exact Hxs|rewrite Hlen; exact Hnode|]|cbn; rewrite He; reflexivity].
      intros a Ha. destruct (erased_in _ _ _ He Ha) as (c & Hc & ->). apply (forallb_in _ _ _ Hst) in Hc. destruct c as [pc lc cc]. destruct pc; try discriminate Hc; discriminate.
  Qed.

  (** ** Outside *)
  Notation writes_item c := (forall ts, spelt ts (words c) -> exists a, sp_item E C ts a /\ erase a = erase c).
  Notation writes_operand c := (forall ts, spelt ts (words c) -> exists a, sp_operand E C ts a /\ erase a = erase c).
  Notation writes_content c := (forall ts, spelt ts (words c) -> exists a, sp_content E C ts a /\ erase a = erase c).
  Lemma write_seq ns : ns <> [] -> Forall (fun c => writes_item c) ns -> forall ts, spelt ts (concat (map words ns)) -> exists xs, sp_seq E C ts xs /\ map erase xs = map erase ns.
  Proof.
    induction ns as [|c ns IH]; [congruence|]. intros _ Hf ts Hs. inversion Hf as [|? ? Hc Hns]; subst. cbn [map concat] in Hs. apply spelt_app in Hs. destruct Hs as (x & y & -> & Hx & Hy).
    destruct (Hc x Hx) as (a & Ha & He). destruct ns as [|c' ns].
    - apply spelt_nil in Hy. subst y. rewrite app_nil_r. exists [a]. split; [apply sq_one; exact Ha|]. cbn. rewrite He. reflexivity.
    - destruct (IH ltac:(discriminate) Hns y Hy) as (xs & Hxs & Hex). exists (a :: xs). split; [apply sq_more; assumption|]. cbn [map] in *. rewrite He, Hex. reflexivity.
  Qed.
  Lemma write_alts ns : ns <> [] -> Forall (fun c => writes_operand c) ns ->
    forall ts, spelt ts (between (u "|") (map words ns)) -> exists xs, sp_alts E C ts xs /\ map erase xs = map erase ns.
  Proof.
    induction ns as [|c ns IH]; [congruence|]. intros _ Hf ts Hs. inversion Hf as [|? ? Hc Hns]; subst. destruct ns as [|c' ns].
    - cbn in Hs. destruct (Hc ts Hs) as (a & Ha & He). exists [a]. split; [apply sal_one; exact Ha|]. cbn. rewrite He. reflexivity.
    - change (between (u "|") (map words (c :: c' :: ns))) with (words c ++ u "|" :: between (u "|") (map words (c' :: ns))) in Hs.
      apply spelt_app in Hs. destruct Hs as (x & y & -> & Hx & Hy). apply spelt_cons in Hy. destruct Hy as (k & y' & -> & Hk & Htk & Hy).
      destruct (Hc x Hx) as (a & Ha & He). destruct (IH ltac:(discriminate) Hns y' Hy) as (xs & Hxs & Hex). exists (a :: xs). split.
      + apply sal_more; [exact Ha|eapply typed_is; [exact Htk|exact Hk|vm_compute; reflexivity]|exact Hxs].
      + cbn [map] in *. rewrite He, Hex. reflexivity.
  Qed.
  Lemma write_segment mn mx l ch : ostrat 0 (QN (PSegment mn mx) l ch) = true -> nodes_ok (QN (PSegment mn mx) l ch) -> writes_item (QN (PSegment mn mx) l ch).
  Proof.
    intros Hst Hok ts Hs. pose proof (Hok _ (sub_here _)) as [[Hlen Hb] _]. destruct ch as [|c [|c' ch]]; try discriminate Hlen.
    pose proof (nodes_ok_child _ _ _ c Hok (or_introl eq_refl)) as Hokc.
    destruct (seg_cases mn mx l c Hok) as [(i & op & v & fl & l' & cs & -> & Hi & Ho & Hw)|[Hn Hw]]; rewrite Hw in Hs; apply spelt_app in Hs; destruct Hs as (x & y & -> & Hx & Hy);
      apply (spelt_quantifier E) in Hy; try exact Hb.
    - destruct (Hokc _ (sub_here _)) as [[Hv Hf] _]. eexists. split; [apply si_literal; [eapply spelt_regex; eassumption|exact Hy]|]. cbn [ostrat Nat.leb andb forallb strat] in Hst. destruct cs; [|discriminate]. subst. reflexivity.
    - apply spelt_cons in Hx. destruct Hx as (a & z & -> & Ha & Hta & Hx). apply spelt_app in Hx. destruct Hx as (z1 & z2 & -> & Hz & Hx). apply spelt_cons in Hx. destruct Hx as (b & z3 & -> & Hbt & Htb & Hx). apply spelt_nil in Hx. subst z3.
      assert (Hl : is_tok L_SQUARE_BRACKET a) by (eapply typed_is; [exact Hta|exact Ha|vm_compute; reflexivity]). assert (Hr : is_tok R_SQUARE_BRACKET b) by (eapply typed_is; [exact Htb|exact Hbt|vm_compute; reflexivity]).
      cbn [ostrat Nat.leb andb] in Hst.
      assert (Hcases : (exists l' , c = QN PWildcard l' []) \/ strat 0 c = true).
      { destruct c as [p l' cs]. destruct p; try (right; cbn [forallb] in Hst; rewrite Bool.andb_true_r in Hst; exact Hst). left. destruct cs; [eauto|discriminate]. }
      cbn [app]. rewrite <- app_assoc. cbn [app]. destruct Hcases as [(l' & ->)|Hc].
      + cbn in Hz. apply spelt_nil in Hz. subst z1. cbn [app]. eexists. split; [apply si_wildcard; eassumption|reflexivity].
      + destruct (write_expr c Hc Hokc Hn z1 Hz) as (e & He & Hee). eexists. split; [apply si_segment; eassumption|]. cbn. rewrite Hee. reflexivity.
  Qed.
  Lemma write_out n : nodes_ok n -> (ostrat 0 n = true -> writes_item n) /\ (ostrat 1 n = true -> writes_operand n) /\ (ostrat 2 n = true -> writes_content n).
  Proof.
    induction n as [p l ch IH] using qnode_ind'. intros Hok. rewrite Forall_forall in IH.
    pose proof (Hok _ (sub_here _)) as [Hnode _].
    assert (K : forall c, In c ch -> (ostrat 0 c = true -> writes_item c) /\ (ostrat 1 c = true -> writes_operand c) /\ (ostrat 2 c = true -> writes_content c)).
    { intros c Hc. apply IH; [exact Hc|]. eapply nodes_ok_child; eassumption. }
    assert (KS : forallb (ostrat 0) ch = true -> Forall (fun c => writes_item c) ch).
    { intros H. apply Forall_forall. intros c Hc. apply K; [exact Hc|]. eapply forallb_in; eassumption. }
    assert (KO : forallb (ostrat 1) ch = true -> Forall (fun c => writes_operand c) ch).
    { intros H. apply Forall_forall. intros c Hc. apply K; [exact Hc|]. eapply forallb_in; eassumption. }
    destruct p as [q i op v fl| | | | | | | | |mn mx|mn mx|sc]; try (split; [|split]; intros Hst; discriminate Hst).
    - (* disjunction *) split; [|split]; intros Hst; try discriminate Hst. cbn [ostrat Nat.eqb andb] in Hst. intros ts Hs. cbn [WriteSpec.words] in Hs.
      assert (Hne : ch <> []) by (intros ->; cbn in Hnode; lia).
      destruct (write_alts ch Hne (KO Hst) ts Hs) as (xs & Hxs & He). eexists. split; [apply sc_alts; [exact Hxs|rewrite <- (map_length erase xs), He, map_length; exact Hnode]|]. cbn. rewrite He. reflexivity.
    - (* sequence *) assert (Hne : ch <> []) by (intros ->; cbn in Hnode; lia).
      assert (X : forallb (ostrat 0) ch = true -> forall ts, spelt ts (words (QN PSequence l ch)) -> exists xs, sp_seq E C ts xs /\ erase (QN PSequence (span ts) xs) = erase (QN PSequence l ch)).
      { intros Hst ts Hs. cbn [WriteSpec.words] in Hs. destruct (write_seq ch Hne (KS Hst) ts Hs) as (xs & Hxs & He). exists xs. split; [exact Hxs|]. cbn. rewrite He. reflexivity. }
      split; [|split]; intros Hst; try discriminate Hst; cbn [ostrat] in Hst.
      + apply Bool.andb_true_iff in Hst. destruct Hst as [_ Hst]. intros ts Hs. destruct (X Hst ts Hs) as (xs & Hxs & He). eexists. split; [apply sop_seq; exact Hxs|exact He].
      + intros ts Hs. destruct (X Hst ts Hs) as (xs & Hxs & He). eexists. split; [apply sc_seq; exact Hxs|exact He].
    - (* segment *) split; [|split]; intros Hst; try discriminate Hst.
      + apply write_segment; assumption.
      + intros ts Hs. destruct (write_segment mn mx l ch Hst Hok ts Hs) as (a & Ha & He). exists a. split; [apply sop_item; exact Ha|exact He].
    - (* group *) split; [|split]; intros Hst; try discriminate Hst. cbn [ostrat Nat.eqb andb] in Hst. intros ts Hs. cbn [WriteSpec.words] in Hs. destruct Hnode as [Hlen Hb]. destruct ch as [|c [|c' ch]]; try discriminate Hlen.
      cbn [map concat forallb] in Hs, Hst. rewrite app_nil_r in Hs. rewrite Bool.andb_true_r in Hst.
      apply spelt_cons in Hs. destruct Hs as (a & z & -> & Ha & Hta & Hs). apply spelt_app in Hs. destruct Hs as (z1 & z2 & -> & Hz & Hs). apply spelt_cons in Hs. destruct Hs as (b & z3 & -> & Hbt & Htb & Hs).
      apply (spelt_quantifier E) in Hs; [|exact Hb]. destruct (proj2 (proj2 (K c (or_introl eq_refl))) Hst z1 Hz) as (x & Hx & He).
      eexists. split; [apply si_group; [eapply typed_is; [exact Hta|exact Ha|vm_compute; reflexivity]|exact Hx|eapply typed_is; [exact Htb|exact Hbt|vm_compute; reflexivity]|exact Hs]|]. cbn. rewrite He. reflexivity.
  Qed.
  Lemma write_main n : nodes_ok n -> mstrat n = true -> forall ts, spelt ts (words n) -> exists a, sp_main E C ts a /\ erase a = erase n.
  Proof.
    intros Hok Hm ts Hs. unfold mstrat in Hm. apply Bool.orb_true_iff in Hm. destruct (write_out n Hok) as (H0 & _ & H2). destruct Hm as [Hm|Hm].
    - destruct (H0 Hm ts Hs) as (a & Ha & He). exists a. split; [apply sm_item; exact Ha|exact He].
    - assert (Hc : ostrat 2 n = true). { destruct n as [p l ch]. destruct p; try discriminate Hm; cbn [ostrat Nat.eqb andb]; [exact Hm|]. apply Bool.andb_true_iff in Hm. apply Hm. }
      destruct (H2 Hc ts Hs) as (a & Ha & He). exists a. split; [apply sm_content; exact Ha|exact He].
  Qed.
  Lemma scope_type sc : first_type lex_rules (scope_text sc) = Some SIMPLE_WITHIN_SCOPE /\ scope_word (scope_text sc) sc.
  Proof. destruct sc; (split; [vm_compute; reflexivity|constructor]). Qed.
  Lemma write_query n e : nodes_ok n -> qstrat n = true -> is_tok EOF e -> forall ts, spelt ts (words n) -> exists a, sp_query E C (ts ++ [e]) a /\ erase a = erase n.
  Proof.
    intros Hok Hq He ts Hs.
    assert (P : mstrat n = true -> exists a, sp_query E C (ts ++ [e]) a /\ erase a = erase n).
    { intros Hm. destruct (write_main n Hok Hm ts Hs) as (a & Ha & Hea). exists a. split; [apply sqy_plain; assumption|exact Hea]. }
    destruct n as [p l ch]. destruct p; try (apply P; exact Hq). destruct ch as [|m [|[p2 l2 ch2] ch]]; try (apply P; exact Hq). destruct p2; try (apply P; exact Hq). destruct ch2, ch; try (apply P; exact Hq).
    cbn [qstrat] in Hq. cbn [WriteSpec.words map between] in Hs. apply spelt_app in Hs. destruct Hs as (x & y & -> & Hx & Hy).
    apply spelt_cons in Hy. destruct Hy as (w & y1 & -> & Hw & Htw & Hy). apply spelt_cons in Hy. destruct Hy as (k & y2 & -> & Hk & Htk & Hy). apply spelt_nil in Hy. subst y2.
    destruct (write_main m (nodes_ok_child _ _ _ m Hok (or_introl eq_refl)) Hq x Hx) as (a & Ha & Hea). destruct (scope_type s) as [Hst Hsw].
    rewrite <- app_assoc. cbn [app]. eexists. split; [eapply sqy_within; [exact Ha|eapply typed_is; [exact Htw|exact Hw|vm_compute; reflexivity]|eapply typed_is; [exact Htk|exact Hk|exact Hst]|rewrite Hk; exact Hsw|exact He]|]. cbn. rewrite Hea. reflexivity.
  Qed.
End Tree.
