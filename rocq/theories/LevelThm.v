(** The tree of a level is the textbook tree exactly when no term deviates. *)
From Coq Require Import String.
From Verif Require Import Base Regex LexRules Lexer Grammar Antlr Ast Builder LexSpec LitSpec LexThms
  GramSpec GramFacts ValueSpec ValueFacts SpellSpec BuilderFacts BuilderRules SimFacts LevelFacts SelFacts PrecFacts PrecConv EvFacts LevelSpec.
Local Open Scope Z_scope.

(** ** Safe shapes *)
Lemma nth_tl_zero js : Forall (eq 0%nat) (tl js) <-> ~ exists p f, nth_error js (S p) = Some (S f).
Proof.
  destruct js as [|j js]; cbn [tl nth_error].
  - split; [intros _ (p & f & H); discriminate|constructor].
  - split.
    + intros H (p & f & Hn). apply nth_error_In in Hn. rewrite Forall_forall in H. specialize (H _ Hn). discriminate.
    + intros H. apply Forall_forall. intros x Hx. apply In_nth_error in Hx. destruct Hx as (p & Hp). destruct x as [|f]; [reflexivity|]. exfalso. eauto.
Qed.
Lemma all_one (jss : list (list nat)) : Forall (fun js => js <> []) jss ->
  Forall (fun js => List.length js = 1%nat) jss <-> ~ exists j js', nth_error jss j = Some js' /\ (2 <= List.length js')%nat.
Proof.
  intros Hne. split.
  - intros H (j & js & Hn & Hl). apply nth_error_In in Hn. rewrite Forall_forall in H. rewrite (H _ Hn) in Hl. lia.
  - intros H. rewrite Forall_forall in *. intros js Hin. pose proof (Hne _ Hin). apply In_nth_error in Hin. destruct Hin as (j & Hj).
    destruct js as [|a [|b js]]; [congruence|reflexivity|]. exfalso. apply H. exists j, (a :: b :: js). split; [exact Hj|cbn; lia].
Qed.
(** Deviation from the second term on. *)
Definition dev_rest (jss : list (list nat)) (i : nat) : Prop :=
  (S i < List.length jss)%nat /\ exists js, nth_error jss i = Some js /\
  ((exists p f, nth_error js (S p) = Some (S f)) \/
   (exists f, js = [S f]) /\ exists j js', (i < j)%nat /\ nth_error jss j = Some js' /\ (2 <= List.length js')%nat).
Lemma safe_rest_dev jss : Forall (fun js => js <> []) jss -> safe_rest jss <-> forall i, ~ dev_rest jss i.
Proof.
  induction 1 as [|js jss Hne Hall IH]; [split; [intros _ i [H _]; cbn in H; lia|intros _; exact I]|]. cbn [safe_rest]. split.
  - intros (Ha & Hb & Hr) [|i] (Hlen & js0 & Hn & Hd).
    + cbn in Hn. injection Hn as <-. cbn in Hlen. destruct Hd as [Hd|[(f & ->) (j & js' & Hj & Hn & Hl)]].
      * apply nth_tl_zero in Hd; [exact Hd|]. apply Ha. destruct jss; [cbn in Hlen; lia|discriminate].
      * pose proof (proj1 (all_one _ Hall) (Hb f eq_refl)) as H. apply H. destruct j as [|j]; [lia|]. cbn in Hn. eauto.
    + apply (proj1 IH Hr i). split; [cbn in Hlen; lia|]. exists js0. cbn in Hn. split; [exact Hn|]. destruct Hd as [Hd|[Hf (j & js' & Hj & Hn' & Hl)]]; [auto|].
      right. split; [exact Hf|]. destruct j as [|j]; [lia|]. exists j, js'. cbn in Hn'. repeat split; auto; lia.
  - intros H. split; [|split].
    + intros Hnn. apply nth_tl_zero. intros Hd. apply (H 0%nat). split; [destruct jss; [contradiction|cbn; lia]|]. exists js. auto.
    + intros j ->. apply all_one; [exact Hall|]. intros (j' & js' & Hn & Hl). apply (H 0%nat). split; [destruct jss; [destruct j'; discriminate|cbn; lia]|].
      exists [S j]. split; [reflexivity|]. right. split; [eauto|]. exists (S j'), js'. repeat split; auto; lia.
    + apply IH. intros i (Hlen & js0 & Hn & Hd). apply (H (S i)). split; [cbn; lia|]. exists js0. split; [exact Hn|]. destruct Hd as [Hd|[Hf (j & js' & Hj & Hn' & Hl)]]; [auto|].
      right. split; [exact Hf|]. exists (S j), js'. repeat split; auto; lia.
Qed.
Lemma nth_removelast {A} (l : list A) j : nth_error (removelast l) j = if (S j <? List.length l)%nat then nth_error l j else None.
Proof.
  destruct l as [|a l] using rev_ind; [destruct j; reflexivity|]. rewrite removelast_last, app_length. cbn [List.length].
  destruct (Nat.ltb_spec (S j) (List.length l + 1)).
  - rewrite nth_error_app1 by lia. reflexivity.
  - apply nth_error_None. lia.
Qed.
Lemma Forall_removelast {A} (P : A -> Prop) l : Forall P l -> Forall P (removelast l).
Proof. intros H. destruct l as [|a l] using rev_ind; [constructor|]. rewrite removelast_last. apply Forall_app in H. apply H. Qed.
Lemma safe_level_dev jss : Forall (fun js => js <> []) jss -> safe_level jss <-> forall i, ~ deviates jss i.
Proof.
  intros Hall. destruct jss as [|js [|js' jss]].
  - split; [intros _ i [H _]; cbn in H; lia|intros _; exact I].
  - split; [intros _ i [H _]; cbn in H; lia|intros _; exact I].
  - inversion Hall as [|? ? Hne Hall']; subst. set (rest := js' :: jss) in *. change (safe_level (js :: rest)) with
      (((2 <= List.length rest)%nat -> Forall (eq 0%nat) (tl js)) /\
       (forall j, js = [S j] -> Forall (fun js' => List.length js' = 1%nat) (removelast rest)) /\ safe_rest rest).
    rewrite (safe_rest_dev rest Hall'). split.
    + intros (Ha & Hb & Hr) [|i] (Hlen & js0 & Hn & Hd).
      * cbn in Hn. injection Hn as <-. change (List.length (js :: rest)) with (S (List.length rest)) in *. destruct Hd as [[Hd [Hi|Hl]]|[(f & ->) (j & j' & Hj & Hn & Hl & [Hi|Hl'])]]; try lia.
        -- apply nth_tl_zero in Hd; [exact Hd|]. apply Ha. lia.
        -- pose proof (proj1 (all_one _ (Forall_removelast _ _ Hall')) (Hb f eq_refl)) as H. apply H. destruct j as [|j]; [lia|]. cbn in Hn. exists j, j'.
           rewrite nth_removelast. destruct (Nat.ltb_spec (S j) (List.length rest)); [auto|lia].
      * apply (Hr i). change (List.length (js :: rest)) with (S (List.length rest)) in *. split; [lia|]. exists js0. split; [exact Hn|].
        destruct Hd as [[Hd _]|[Hf (j & j' & Hj & Hn' & Hl & _)]]; [auto|]. right. split; [exact Hf|]. destruct j as [|j]; [lia|]. exists j, j'. repeat split; auto; lia.
    + intros H. split; [|split].
      * intros Hl. apply nth_tl_zero. intros Hd. apply (H 0%nat). unfold deviates. change (List.length (js :: rest)) with (S (List.length rest)). split; [lia|]. exists js. split; [reflexivity|]. left. split; [exact Hd|]. right. cbn [List.length]. lia.
      * intros j ->. apply all_one; [apply Forall_removelast; exact Hall'|]. intros (j' & jz & Hn & Hl). rewrite nth_removelast in Hn.
        destruct (Nat.ltb_spec (S j') (List.length rest)); [|discriminate]. apply (H 0%nat). unfold deviates. change (List.length ([S j] :: rest)) with (S (List.length rest)). split; [lia|].
        exists [S j]. split; [reflexivity|]. right. split; [eauto|]. exists (S j'), jz. repeat split; auto; cbn [List.length]; try lia. 
      * intros i (Hlen & js0 & Hn & Hd). apply (H (S i)). unfold deviates. change (List.length (js :: rest)) with (S (List.length rest)). split; [lia|]. exists js0. split; [exact Hn|].
        destruct Hd as [Hd|[Hf (j & jz & Hj & Hn' & Hl)]]; [left; split; [exact Hd|left; lia]|].
        right. split; [exact Hf|]. exists (S j), jz. repeat split; auto; lia.
Qed.

(** ** Splitting *)
Lemma parts_ne sep d ts : parts_at sep d ts <> [].
Proof. destruct ts as [|t r]; cbn; [discriminate|]. destruct (_ && _)%bool; [discriminate|]. destruct (parts_at _ _ _); discriminate. Qed.
Lemma depth_run d t : (opens (t_type t) = false -> closes (t_type t) = true -> 1 <= Z.of_nat d) ->
  forall w, run (Z.of_nat d) (t_type t :: w) = run (Z.of_nat (depth_after d t)) w.
Proof.
  intros Hd w. cbn [run]. unfold depth_after. destruct (t_type t); cbn [opens closes] in *; try reflexivity;
    try (rewrite Nat2Z.inj_succ, <- Z.add_1_r; reflexivity);
    (destruct (Z.leb_spec 1 (Z.of_nat d)); [f_equal; lia|specialize (Hd eq_refl eq_refl); lia]).
Qed.
Lemma parts_app sep a : (sep = AND \/ sep = OR) -> forall d d' b, run (Z.of_nat d) (types a) = Some (Z.of_nat d') -> ~ In sep (tops (Z.of_nat d) (types a)) ->
  parts_at sep d (a ++ b) = match parts_at sep d' b with p :: ps => (a ++ p) :: ps | [] => [] end.
Proof.
  intros Hsep. induction a as [|t a IH]; intros d d' b Hr Hn; cbn [map app] in *.
  - cbn in Hr. injection Hr as Hr. apply Nat2Z.inj in Hr. subst. destruct (parts_at sep d' b); reflexivity.
  - assert (Hcl : opens (t_type t) = false -> closes (t_type t) = true -> 1 <= Z.of_nat d).
    { intros Ho Hc. cbn [run] in Hr. rewrite Ho, Hc in Hr. destruct (Z.leb_spec 1 (Z.of_nat d)); [assumption|discriminate]. }
    rewrite (depth_run d t Hcl) in Hr. cbn [parts_at].
    assert (Hs : ((d =? 0)%nat && ttype_eqb sep (t_type t))%bool = false).
    { apply andb_false_iff. destruct (Nat.eqb_spec d 0) as [->|]; [right|left; reflexivity]. unfold ttype_eqb. destruct (ttype_eq_dec sep (t_type t)) as [He|]; [|reflexivity].
      exfalso. apply Hn. rewrite <- He. cbn [tops]. destruct Hsep; subst sep; cbn; auto. }
    assert (Hn' : ~ In sep (tops (Z.of_nat (depth_after d t)) (types a))).
    { intros Hi. apply Hn. cbn [tops]. unfold depth_after in Hi. destruct (t_type t) eqn:Ht; cbn [opens closes] in *;
        try (destruct (Z.of_nat d =? 0); [right|]; exact Hi);
        try (rewrite Nat2Z.inj_succ, <- Z.add_1_r in Hi; exact Hi);
        (specialize (Hcl eq_refl eq_refl); replace (Z.of_nat d - 1) with (Z.of_nat (pred d)) by lia; exact Hi). }
    rewrite Hs, (IH _ _ b Hr Hn'). destruct (parts_at sep d' b) eqn:Hp; [exfalso; exact (parts_ne _ _ _ Hp)|reflexivity].
Qed.
Definition clean (sep : ttype) (ts : list token) : Prop := balanced (types ts) /\ ~ In sep (ops (types ts)).
Lemma clean_tops sep ts : (sep = AND \/ sep = OR) -> clean sep ts -> ~ In sep (tops (Z.of_nat 0) (types ts)).
Proof. intros Hsep [_ H] Hi. apply H. unfold ops. apply filter_In. split; [exact Hi|destruct Hsep; subst; reflexivity]. Qed.
Lemma parts_one sep a : (sep = AND \/ sep = OR) -> clean sep a -> parts sep a = [a].
Proof.
  intros Hs Hc. unfold parts. rewrite <- (app_nil_r a) at 1. rewrite (parts_app sep a Hs 0 0 []); [cbn; rewrite app_nil_r; reflexivity|exact (proj1 Hc)|apply clean_tops; assumption].
Qed.
Lemma parts_sep sep a k b : (sep = AND \/ sep = OR) -> clean sep a -> t_type k = sep -> parts sep (a ++ k :: b) = a :: parts sep b.
Proof.
  intros Hs Hc Hk. unfold parts. rewrite (parts_app sep a Hs 0 0 (k :: b)); [|exact (proj1 Hc)|apply clean_tops; assumption].
  cbn [parts_at]. rewrite Hk. unfold ttype_eqb. destruct (ttype_eq_dec sep sep); [|contradiction]. cbn. rewrite app_nil_r. reflexivity.
Qed.

(** ** Shapes of level words *)
Lemma atom_nots ts : atom ts -> leading_nots ts = 0%nat.
Proof.
  intros H. destruct ts as [|t ts]; [reflexivity|]. cbn [leading_nots]. assert (Hn : t_type t <> NOT).
  { destruct H as [H|H]; cbn [map] in H; [apply eb_first in H|apply eg_first in H]; intros He; rewrite He in H; cbn in H; intuition discriminate. }
  unfold ttype_eqb. destruct (ttype_eq_dec NOT (t_type t)) as [He|]; [exfalso; apply Hn; symmetry; exact He|reflexivity].
Qed.
Lemma wfactor_nots j ts : wfactor j ts -> leading_nots ts = j.
Proof. induction 1 as [ts H|j k ts Hk _ IH]; [apply atom_nots; exact H|]. cbn [leading_nots]. rewrite Hk. cbn. rewrite IH. reflexivity. Qed.
Lemma wfactor_clean sep j ts : wfactor j ts -> clean sep ts.
Proof. intros H. apply wfactor_props in H. destruct H as [H1 H2]. split; [exact H1|]. rewrite H2. intros []. Qed.
Lemma wterm_clean js ts : wterm js ts -> clean OR ts.
Proof. intros H. apply wterm_props in H. destruct H as [H1 H2]. split; [exact H1|]. rewrite H2. intros Hi. apply repeat_spec in Hi. discriminate. Qed.
Lemma wterm_parts js ts : wterm js ts -> map leading_nots (parts AND ts) = js.
Proof.
  induction 1 as [j f H|j f k js ts Hf Hk Ht IH].
  - rewrite parts_one by (auto; eapply wfactor_clean; exact H). cbn. rewrite (wfactor_nots _ _ H). reflexivity.
  - rewrite parts_sep by (auto; eapply wfactor_clean; exact Hf). cbn [map]. rewrite (wfactor_nots _ _ Hf), IH. reflexivity.
Qed.
Lemma wlevel_shape jss ts : wlevel jss ts -> shape ts = jss.
Proof.
  unfold shape. induction 1 as [j f H|j f k js ts Hf Hk Ht IH].
  - rewrite parts_one by (auto; eapply wterm_clean; exact H). cbn. rewrite (wterm_parts _ _ H). reflexivity.
  - rewrite parts_sep by (auto; eapply wterm_clean; exact Hf). cbn [map]. rewrite (wterm_parts _ _ Hf), IH. reflexivity.
Qed.

(** ** Trees and nodes *)
Section Nodes.
  Variables (E : penv) (C : pcfg).
  Definition sound (t : ptree) : Prop := rooted t /\ Forall tok_ok (leaves t) /\ conds E (leaves t).
  Definition sound_child (t : ptree) : Prop := match t with Leaf _ => True | Node _ _ => sound t end.
  Lemma derives_rooted e x : derives e x -> Forall (fun t => match t with Leaf _ => True | Node _ _ => rooted t end) x.
  Proof.
    induction 1 as [l t Hin|r ch Hd IH|a b x y _ IH1 _ IH2|a b x _ IH|a b x _ IH|e|e x _ IH|e x y _ IH1 _ IH2|e|e x y _ IH1 _ IH2];
      try (apply Forall_app; auto); auto; constructor; auto. exists r. constructor. exact Hd.
  Qed.
  Lemma sound_list x : Forall (fun t => match t with Leaf _ => True | Node _ _ => rooted t end) x -> Forall tok_ok (flat_map leaves x) -> conds E (flat_map leaves x) ->
    Forall sound_child x.
  Proof.
    induction 1 as [|t x Ht _ IH]; intros Hk Hc; [constructor|]. cbn [flat_map] in *. apply Forall_app in Hk. destruct Hk as [Hk1 Hk2].
    apply conds_weaken_app in Hc. destruct Hc as [Hc1 Hc2]. constructor; [|auto]. destruct t; [exact I|]. split; [exact Ht|]. auto.
  Qed.
  Lemma sound_children r ch : sound (Node r ch) -> derives (body r) ch /\ Forall sound_child ch.
  Proof.
    intros ((r' & Hr) & Hk & Hc). inversion Hr as [|? ? Hd| | | | | | | |]; subst. split; [exact Hd|]. eapply sound_list; [eapply derives_rooted; exact Hd|exact Hk|exact Hc].
  Qed.
  Lemma sound_sub t t' : subtree t' t -> sound t -> sound_child t'.
  Proof.
    induction 1 as [|r ch c Hin Hsub IH]; intros Hs; [destruct t'; [exact I|exact Hs]|].
    destruct (sound_children _ _ Hs) as [_ Hf]. rewrite Forall_forall in Hf. specialize (Hf _ Hin). destruct c as [k|r' ch']; [|auto].
    destruct t'; [exact I|]. exfalso. inversion Hsub.
  Qed.
  Definition class_rule (c : class) : option rule :=
    match c with
    | CExpression => Some expression_basic | CExpressionGroup => Some expression_group | CExpressionNot => Some expression_not
    | CExpressionAnd => Some expression_and | CExpressionOr => Some expression_or | _ => None
    end.
  Definition op_rule (r : rule) : bool := match r with expression => false | _ => level_rule r end.
  Lemma ev_sound r ch : sound (Node r ch) -> op_rule r = true ->
    exists n, ev E C (Node r ch) = Some n /\ sp_expr E C (leaves (Node r ch)) n /\ class_rule (q_class n) = Some r.
  Proof.
    intros ((r' & Hr) & Hk & Hc) Hop. inversion Hr as [|? ? Hd| | | | | | | |]; subst.
    assert (Hk' : Forall tok_ok (flat_map leaves [Node r ch])) by (cbn; rewrite app_nil_r; exact Hk).
    pose proof (derives_ev E C _ _ Hr Hk') as Hev. pose proof (derives_spec E C _ _ Hr Hk') as Hsp. inversion Hev as [|? ? He _]; subst. inversion Hsp as [|? ? Hs _]; subst.
    cbn [child_ev child_spec] in He, Hs. assert (Hv : valueless r = false) by (destruct r; try discriminate Hop; reflexivity). rewrite Hv in He.
    destruct (He Hc) as (n & Hn & Hy). exists n. split; [exact Hn|].
    destruct r; try discriminate Hop; cbn [spec] in Hs; destruct Hs as [_ [(m & [Hm Hcl] & _ & Hy')|[Hno _]]]; try contradiction;
      rewrite (yields_det _ _ _ _ _ Hy Hy'), Hcl; auto.
  Qed.
  Lemma sound_node t : sound t -> exists r ch, t = Node r ch.
  Proof. intros ((r & Hr) & _). inversion Hr; subst. eauto. Qed.

  (** Operator trees below a level. *)
  Definition op_tree (t : ptree) : Prop := match t with Node r _ => op_rule r = true | _ => False end.
  Inductive seplist (sep : ttype) : list ptree -> Prop :=
  | sl_nil : seplist sep []
  | sl_cons k t l : t_type k = sep -> op_tree t -> seplist sep l -> seplist sep (Leaf k :: t :: l).
  Lemma op_A4 x : derives A4 x -> exists t, x = [t] /\ op_tree t.
  Proof. intros H. alts; match goal with H : derives (NT _) _ |- _ => pose proof (one_node _ _ H) as [ch ->] end; eexists; (split; [reflexivity|reflexivity]). Qed.
  Lemma op_A3 x : derives A3 x -> exists t, x = [t] /\ op_tree t.
  Proof. intros H. alts; match goal with H : derives (NT _) _ |- _ => pose proof (one_node _ _ H) as [ch ->] end; eexists; (split; [reflexivity|reflexivity]). Qed.
  Lemma op_O4 x : derives O4 x -> exists t, x = [t] /\ op_tree t.
  Proof. intros H. alts; match goal with H : derives (NT _) _ |- _ => pose proof (one_node _ _ H) as [ch ->] end; eexists; (split; [reflexivity|reflexivity]). Qed.
  Lemma op_N5 x : derives N5 x -> exists t, x = [t] /\ op_tree t.
  Proof. intros H. alts; match goal with H : derives (NT _) _ |- _ => pose proof (one_node _ _ H) as [ch ->] end; eexists; (split; [reflexivity|reflexivity]). Qed.
  Lemma op_E5 x : derives E5 x -> exists t, x = [t] /\ op_tree t.
  Proof. intros H. alts; match goal with H : derives (NT _) _ |- _ => pose proof (one_node _ _ H) as [ch ->] end; eexists; (split; [reflexivity|reflexivity]). Qed.
  Lemma derives_seplist sep a : (forall x, derives a x -> exists t, x = [t] /\ op_tree t) -> forall x, derives (St (Sq (Tk [sep]) a)) x -> seplist sep x.
  Proof.
    intros Ha x Hd. remember (St (Sq (Tk [sep]) a)) as e eqn:He.
    induction Hd as [| | | | | | | |e1|e1 x y Hx _ Hy IH]; try discriminate He; [constructor|]. injection He as ->.
    inversion Hx as [| |? ? x1 x2 H1 H2| | | | | | |]; subst. inversion H1 as [? k Hk| | | | | | | | |]; subst. destruct Hk as [Hk|[]].
    destruct (Ha _ H2) as (t & -> & Ht). cbn. constructor; auto.
  Qed.
  Lemma or_children ch : derives (body expression_or) ch -> exists t l, ch = t :: l /\ op_tree t /\ seplist OR l /\ l <> [].
  Proof.
    intros Hb. cbn [body] in Hb. inversion Hb as [| |? ? x y Hx Hy| | | | | | |]; subst. destruct (op_O4 _ Hx) as (t & -> & Ht). exists t, y.
    split; [reflexivity|]. split; [exact Ht|]. inversion Hy as [| | | | | | |? a b Ha Hb'| |]; subst. split; [apply (derives_seplist OR O4 op_O4); apply d_st1; assumption|].
    inversion Ha as [| |? ? x1 x2 H1 H2| | | | | | |]; subst. inversion H1; subst. discriminate.
  Qed.
  Lemma and_children ch : derives (body expression_and) ch -> exists t l, ch = t :: l /\ op_tree t /\ seplist AND l /\ l <> [].
  Proof.
    intros Hb. cbn [body] in Hb. inversion Hb as [| |? ? x y Hx Hy| | | | | | |]; subst. destruct (op_A3 _ Hx) as (t & -> & Ht). exists t, y.
    split; [reflexivity|]. split; [exact Ht|]. inversion Hy as [| | | | | | |? a b Ha Hb'| |]; subst. split; [apply (derives_seplist AND A4 op_A4); apply d_st1; assumption|].
    inversion Ha as [| |? ? x1 x2 H1 H2| | | | | | |]; subst. inversion H1; subst. discriminate.
  Qed.
  Lemma not_children ch : derives (body expression_not) ch -> exists k t, ch = [Leaf k; t] /\ t_type k = NOT /\ op_tree t.
  Proof.
    intros Hb. cbn [body] in Hb. inversion Hb as [| |? ? x y Hx Hy| | | | | | |]; subst. inversion Hx as [? k Hk| | | | | | | | |]; subst. destruct Hk as [Hk|[]].
    destruct (op_N5 _ Hy) as (t & -> & Ht). exists k, t. cbn. auto.
  Qed.
  Lemma evs_op t l : op_tree t -> evs E C (t :: l) = match ev E C t, evs E C l with Some n, Some ns => Some (n :: ns) | _, _ => None end.
  Proof. destruct t as [k|r ch]; [intros []|]. intros H. destruct r; try discriminate H; reflexivity. Qed.
  Lemma evs_leaf k l : evs E C (Leaf k :: l) = evs E C l.
  Proof. reflexivity. Qed.
  Lemma evs_sep sep l : seplist sep l -> Forall sound_child l -> exists ns, evs E C l = Some ns.
  Proof.
    induction 1 as [|k t l Hk Ht _ IH]; intros HF; [exists []; reflexivity|]. inversion HF as [|? ? _ HF1]; subst. inversion HF1 as [|? ? Hs HF2]; subst.
    rewrite evs_leaf, evs_op by exact Ht. destruct t as [kk|r ch]; [destruct Ht|]. destruct (ev_sound r ch Hs Ht) as (n & -> & _). destruct (IH HF2) as (ns & ->). eauto.
  Qed.

  (** From the textbook tree to the textbook node. *)
  Lemma factor_node j t : factor_t j t -> sound t -> forall n, ev E C t = Some n -> tb_factor E C (leaves t) n.
  Proof.
    induction 1 as [ch|ch|j k t Ht IH]; intros Hs n Hn.
    - destruct (ev_sound _ _ Hs eq_refl) as (n' & Hn' & Hsp & Hcl). replace n' with n in * by congruence. apply tb_atom; [exact Hsp|]. left. destruct (q_class n); try discriminate Hcl; reflexivity.
    - destruct (ev_sound _ _ Hs eq_refl) as (n' & Hn' & Hsp & Hcl). replace n' with n in * by congruence. apply tb_atom; [exact Hsp|]. right. destruct (q_class n); try discriminate Hcl; reflexivity.
    - destruct (sound_children _ _ Hs) as [Hd HF]. destruct (not_children _ Hd) as (k' & t' & Heq & Hk & Hop). injection Heq as <- <-.
      inversion HF as [|? ? _ HF1]; subst. inversion HF1 as [|? ? Hst _]; subst. destruct t as [kk|r ch]; [destruct Hop|].
      rewrite ev_eq in Hn. cbn [ev_node] in Hn. rewrite evs_leaf, evs_op in Hn by exact Hop. destruct (ev_sound r ch Hst Hop) as (n1 & Hn1 & _). rewrite Hn1 in Hn. cbn [evs] in Hn. cbv beta iota in Hn.
      injection Hn as <-. rewrite (rule_span expression_not _ ltac:(discriminate) Hd).
      change (leaves (Node expression_not [Leaf k; Node r ch])) with (k :: leaves (Node r ch) ++ []). rewrite app_nil_r. apply tb_not; [exact Hk|]. apply IH; assumption.
  Qed.
  Lemma factors_node js l : factors_t js l -> js <> [] -> seplist AND l -> Forall sound_child l -> forall ns, evs E C l = Some ns ->
    exists k x, flat_map leaves l = k :: x /\ t_type k = AND /\ Forall2 (tb_factor E C) (parts AND x) ns.
  Proof.
    induction 1 as [|j js k t l Ht Hl IH]; intros Hne Hsep HF ns Hns; [contradiction|]. inversion Hsep as [|? ? ? Hk Hop Hsep']; subst.
    inversion HF as [|? ? _ HF1]; subst. inversion HF1 as [|? ? Hs HF2]; subst. rewrite evs_leaf, evs_op in Hns by exact Hop.
    destruct t as [kk|r ch]; [destruct Hop|]. destruct (ev_sound r ch Hs Hop) as (n & Hn & _). rewrite Hn in Hns. destruct (evs E C l) as [ns'|] eqn:Hl'; [|discriminate].
    injection Hns as <-. pose proof (factor_node _ _ Ht Hs n Hn) as Hf. pose proof (wfactor_clean AND _ _ (factor_word _ _ Ht (proj1 Hs))) as Hc.
    exists k. cbn [flat_map leaves app]. destruct js as [|j' js].
    - inversion Hl; subst. cbn in Hl'. injection Hl' as <-. exists (leaves (Node r ch)). split; [cbn; rewrite app_nil_r; reflexivity|]. split; [exact Hk|].
      rewrite parts_one by auto. constructor; [exact Hf|constructor].
    - destruct (IH ltac:(discriminate) Hsep' HF2 ns' eq_refl) as (k' & x & Hx & Hk' & H2). exists (leaves (Node r ch) ++ k' :: x). rewrite Hx. split; [reflexivity|]. split; [exact Hk|].
      rewrite parts_sep by auto. constructor; assumption.
  Qed.
  Lemma term_node js t : term_t js t -> sound t -> forall n, ev E C t = Some n -> tb_term E C (leaves t) n.
  Proof.
    intros [j t' Ht|j js' t' l Ht Hl Hne] Hs n Hn; unfold tb_term.
    - rewrite parts_one by (auto; exact (wfactor_clean AND _ _ (factor_word _ _ Ht (proj1 Hs)))). eapply factor_node; eassumption.
    - destruct (sound_children _ _ Hs) as [Hd HF]. destruct (and_children _ Hd) as (t1 & l1 & Heq & Hop & Hsep & _). injection Heq as <- <-.
      inversion HF as [|? ? Hst HF1]; subst. destruct t' as [kk|r ch]; [destruct Hop|]. destruct (evs_sep _ _ Hsep HF1) as (ns & Hns).
      destruct (ev_sound r ch Hst Hop) as (n1 & Hn1 & _). rewrite ev_eq in Hn. cbn [ev_node] in Hn. rewrite evs_op, Hn1, Hns in Hn by exact Hop. cbn [option_map] in Hn. injection Hn as <-.
      destruct (factors_node _ _ Hl Hne Hsep HF1 _ Hns) as (k & x & Hx & Hk & H2). rewrite (rule_span expression_and _ ltac:(discriminate) Hd).
      change (leaves (Node expression_and (Node r ch :: l))) with (leaves (Node r ch) ++ flat_map leaves l). rewrite Hx.
      rewrite parts_sep by (auto; exact (wfactor_clean AND _ _ (factor_word _ _ Ht (proj1 Hst)))). destruct (parts AND x) as [|p ps] eqn:Hp; [exfalso; exact (parts_ne _ _ _ Hp)|].
      exists (n1 :: ns). split; [|reflexivity]. constructor; [eapply factor_node; eassumption|exact H2].
  Qed.
  Lemma terms_node jss l : terms_t jss l -> jss <> [] -> seplist OR l -> Forall sound_child l -> forall ns, evs E C l = Some ns ->
    exists k x, flat_map leaves l = k :: x /\ t_type k = OR /\ Forall2 (tb_term E C) (parts OR x) ns.
  Proof.
    induction 1 as [|j js k t l Ht Hl IH]; intros Hne Hsep HF ns Hns; [contradiction|]. inversion Hsep as [|? ? ? Hk Hop Hsep']; subst.
    inversion HF as [|? ? _ HF1]; subst. inversion HF1 as [|? ? Hs HF2]; subst. rewrite evs_leaf, evs_op in Hns by exact Hop.
    destruct t as [kk|r ch]; [destruct Hop|]. destruct (ev_sound r ch Hs Hop) as (n & Hn & _). rewrite Hn in Hns. destruct (evs E C l) as [ns'|] eqn:Hl'; [|discriminate].
    injection Hns as <-. pose proof (term_node _ _ Ht Hs n Hn) as Hf. pose proof (wterm_clean _ _ (term_word _ _ Ht (proj1 Hs))) as Hc.
    exists k. cbn [flat_map leaves app]. destruct js as [|j' js].
    - inversion Hl; subst. cbn in Hl'. injection Hl' as <-. exists (leaves (Node r ch)). split; [cbn; rewrite app_nil_r; reflexivity|]. split; [exact Hk|].
      rewrite parts_one by auto. constructor; [exact Hf|constructor].
    - destruct (IH ltac:(discriminate) Hsep' HF2 ns' eq_refl) as (k' & x & Hx & Hk' & H2). exists (leaves (Node r ch) ++ k' :: x). rewrite Hx. split; [reflexivity|]. split; [exact Hk|].
      rewrite parts_sep by auto. constructor; assumption.
  Qed.
  Lemma level_node jss t : level_t jss t -> sound t -> forall n, ev E C t = Some n -> textbook E C (leaves t) n.
  Proof.
    intros [j t' Ht|j js' t' l Ht Hl Hne] Hs n Hn; unfold textbook.
    - rewrite parts_one by (auto; exact (wterm_clean _ _ (term_word _ _ Ht (proj1 Hs)))). eapply term_node; eassumption.
    - destruct (sound_children _ _ Hs) as [Hd HF]. destruct (or_children _ Hd) as (t1 & l1 & Heq & Hop & Hsep & _). injection Heq as <- <-.
      inversion HF as [|? ? Hst HF1]; subst. destruct t' as [kk|r ch]; [destruct Hop|]. destruct (evs_sep _ _ Hsep HF1) as (ns & Hns).
      destruct (ev_sound r ch Hst Hop) as (n1 & Hn1 & _). rewrite ev_eq in Hn. cbn [ev_node] in Hn. rewrite evs_op, Hn1, Hns in Hn by exact Hop. cbn [option_map] in Hn. injection Hn as <-.
      destruct (terms_node _ _ Hl Hne Hsep HF1 _ Hns) as (k & x & Hx & Hk & H2). rewrite (rule_span expression_or _ ltac:(discriminate) Hd).
      change (leaves (Node expression_or (Node r ch :: l))) with (leaves (Node r ch) ++ flat_map leaves l). rewrite Hx.
      rewrite parts_sep by (auto; exact (wterm_clean _ _ (term_word _ _ Ht (proj1 Hst)))). destruct (parts OR x) as [|p ps] eqn:Hp; [exfalso; exact (parts_ne _ _ _ Hp)|].
      exists (n1 :: ns). split; [|reflexivity]. constructor; [eapply term_node; eassumption|exact H2].
  Qed.

  (** From the textbook node to the textbook tree. *)
  Lemma node_factor ts n : tb_factor E C ts n -> forall t, sound t -> op_tree t -> ev E C t = Some n -> exists j, factor_t j t.
  Proof.
    induction 1 as [ts n Hsp Hc|k ts n Hk _ IH]; intros t Hs Hop Hn; (destruct t as [kk|r ch]; [destruct Hop|]); destruct (ev_sound r ch Hs Hop) as (n' & Hn' & _ & Hcl); rewrite Hn in Hn'; injection Hn' as <-.
    - exists 0%nat. destruct Hc as [Hc|Hc]; rewrite Hc in Hcl; injection Hcl as <-; constructor.
    - cbn in Hcl. injection Hcl as <-. destruct (sound_children _ _ Hs) as [Hd HF]. destruct (not_children _ Hd) as (k' & t' & -> & _ & Hop').
      inversion HF as [|? ? _ HF1]; subst. inversion HF1 as [|? ? Hst _]; subst. destruct t' as [kk|r ch]; [destruct Hop'|].
      rewrite ev_eq in Hn. cbn [ev_node] in Hn. rewrite evs_leaf, evs_op in Hn by exact Hop'. destruct (ev_sound r ch Hst Hop') as (n1 & Hn1 & _). rewrite Hn1 in Hn. cbn [evs] in Hn. cbv beta iota in Hn.
      injection Hn as _ ->. destruct (IH _ Hst Hop' Hn1) as (j & Hj). exists (S j). constructor. exact Hj.
  Qed.
  Lemma node_factors ps ns : Forall2 (tb_factor E C) ps ns -> forall l, seplist AND l -> Forall sound_child l -> evs E C l = Some ns -> exists js, factors_t js l.
  Proof.
    induction 1 as [|p n ps ns Hn _ IH]; intros l Hsep HF Hev; (destruct Hsep as [|k t l Hk Hop Hsep]; [eexists; constructor|]).
    - rewrite evs_leaf, evs_op in Hev by exact Hop. destruct (ev E C t), (evs E C l); discriminate.
    - inversion HF as [|? ? _ HF1]; subst. inversion HF1 as [|? ? Hs HF2]; subst. rewrite evs_leaf, evs_op in Hev by exact Hop.
      destruct t as [kk|r ch]; [destruct Hop|]. destruct (ev E C (Node r ch)) as [n'|] eqn:Hn'; [|discriminate]. destruct (evs E C l) as [ns'|] eqn:Hns; [|discriminate]. injection Hev as -> ->.
      destruct (node_factor _ _ Hn _ Hs Hop Hn') as (j & Hj). destruct (IH l Hsep HF2 Hns) as (js & Hjs). exists (j :: js). constructor; assumption.
  Qed.
  Lemma node_term ts n : tb_term E C ts n -> forall t, sound t -> op_tree t -> ev E C t = Some n -> exists js, term_t js t.
  Proof.
    intros H t Hs Hop Hn. assert (Hc : tb_factor E C ts n \/ exists ps ns, Forall2 (tb_factor E C) ps ns /\ (2 <= List.length ps)%nat /\ n = QN PAnd (span ts) ns).
    { unfold tb_term in H. destruct (parts AND ts) as [|p [|p' ps]] eqn:Hp; [exfalso; exact (parts_ne _ _ _ Hp)|auto|]. destruct H as (ns & H2 & ->). right. exists (p :: p' :: ps), ns. split; [exact H2|]. split; [cbn; lia|reflexivity]. }
    clear H. destruct Hc as [Hc|(ps & ns & H2 & Hl & Hq)].
    - destruct (node_factor _ _ Hc _ Hs Hop Hn) as (j & Hj). exists [j]. constructor. exact Hj.
    - destruct t as [kk|r ch]; [destruct Hop|]. destruct (ev_sound r ch Hs Hop) as (n' & Hn' & _ & Hcl). replace n' with n in Hcl by congruence. rewrite Hq in Hcl. cbn in Hcl. injection Hcl as <-.
      destruct (sound_children _ _ Hs) as [Hd HF]. destruct (and_children _ Hd) as (t1 & l1 & -> & Hop1 & Hsep & Hne). inversion HF as [|? ? Hst HF1]; subst.
      destruct t1 as [kk|r ch]; [destruct Hop1|]. destruct (evs_sep _ _ Hsep HF1) as (ns' & Hns). destruct (ev_sound r ch Hst Hop1) as (n1 & Hn1 & _).
      rewrite ev_eq in Hn. cbn [ev_node] in Hn. rewrite evs_op, Hn1, Hns in Hn by exact Hop1. cbn [option_map] in Hn. injection Hn as _ <-.
      inversion H2 as [|p ? ps' ? Hf H2']; subst. destruct (node_factor _ _ Hf _ Hst Hop1 Hn1) as (j & Hj). destruct (node_factors _ _ H2' _ Hsep HF1 Hns) as (js & Hjs).
      exists (j :: js). apply tt_and; [exact Hj|exact Hjs|]. intros ->. inversion Hjs; subst. contradiction.
  Qed.
  Lemma node_terms ps ns : Forall2 (tb_term E C) ps ns -> forall l, seplist OR l -> Forall sound_child l -> evs E C l = Some ns -> exists js, terms_t js l.
  Proof.
    induction 1 as [|p n ps ns Hn _ IH]; intros l Hsep HF Hev; (destruct Hsep as [|k t l Hk Hop Hsep]; [eexists; constructor|]).
    - rewrite evs_leaf, evs_op in Hev by exact Hop. destruct (ev E C t), (evs E C l); discriminate.
    - inversion HF as [|? ? _ HF1]; subst. inversion HF1 as [|? ? Hs HF2]; subst. rewrite evs_leaf, evs_op in Hev by exact Hop.
      destruct t as [kk|r ch]; [destruct Hop|]. destruct (ev E C (Node r ch)) as [n'|] eqn:Hn'; [|discriminate]. destruct (evs E C l) as [ns'|] eqn:Hns; [|discriminate]. injection Hev as -> ->.
      destruct (node_term _ _ Hn _ Hs Hop Hn') as (j & Hj). destruct (IH l Hsep HF2 Hns) as (js & Hjs). exists (j :: js). constructor; assumption.
  Qed.
  Lemma node_level ts n : textbook E C ts n -> forall t, sound t -> op_tree t -> ev E C t = Some n -> exists jss, level_t jss t.
  Proof.
    intros H t Hs Hop Hn. assert (Hc : tb_term E C ts n \/ exists ps ns, Forall2 (tb_term E C) ps ns /\ (2 <= List.length ps)%nat /\ n = QN POr (span ts) ns).
    { unfold textbook in H. destruct (parts OR ts) as [|p [|p' ps]] eqn:Hp; [exfalso; exact (parts_ne _ _ _ Hp)|auto|]. destruct H as (ns & H2 & ->). right. exists (p :: p' :: ps), ns. split; [exact H2|]. split; [cbn; lia|reflexivity]. }
    clear H. destruct Hc as [Hc|(ps & ns & H2 & Hl & Hq)].
    - destruct (node_term _ _ Hc _ Hs Hop Hn) as (j & Hj). exists [j]. constructor. exact Hj.
    - destruct t as [kk|r ch]; [destruct Hop|]. destruct (ev_sound r ch Hs Hop) as (n' & Hn' & _ & Hcl). replace n' with n in Hcl by congruence. rewrite Hq in Hcl. cbn in Hcl. injection Hcl as <-.
      destruct (sound_children _ _ Hs) as [Hd HF]. destruct (or_children _ Hd) as (t1 & l1 & -> & Hop1 & Hsep & Hne). inversion HF as [|? ? Hst HF1]; subst.
      destruct t1 as [kk|r ch]; [destruct Hop1|]. destruct (evs_sep _ _ Hsep HF1) as (ns' & Hns). destruct (ev_sound r ch Hst Hop1) as (n1 & Hn1 & _).
      rewrite ev_eq in Hn. cbn [ev_node] in Hn. rewrite evs_op, Hn1, Hns in Hn by exact Hop1. cbn [option_map] in Hn. injection Hn as _ <-.
      inversion H2 as [|p ? ps' ? Hf H2']; subst. destruct (node_term _ _ Hf _ Hst Hop1 Hn1) as (j & Hj). destruct (node_terms _ _ H2' _ Hsep HF1 Hns) as (js & Hjs).
      exists (j :: js). apply lt_or; [exact Hj|exact Hjs|]. intros ->. inversion Hjs; subst. contradiction.
  Qed.

  (** The tree prediction selects on one level. *)
  Lemma level_exact c K kc R t n : (c = R_PAREN \/ c = R_SQUARE_BRACKET) -> t_type kc = c -> viable K (types R) -> stack_ok K = true ->
    selects E5 (Tk [c] :: K) (leaves t ++ kc :: R) [t] (kc :: R) -> Forall tok_ok (leaves t) -> conds E (leaves t) -> ev E C t = Some n ->
    (textbook E C (leaves t) n <-> forall i, ~ deviates (shape (leaves t)) i).
  Proof.
    intros Hc Hkc HKv HKo Hs Hk Hcd Hn. pose proof (sel_drv _ _ _ _ _ Hs) as Hd.
    assert (Hr : rooted t) by (pose proof (op_E5 _ Hd) as (t1 & Heq & Hop); injection Heq as ->; destruct t1; [destruct Hop|]; pose proof (derives_rooted _ _ Hd) as HF; inversion HF; subst; assumption).
    assert (Hop : op_tree t) by (pose proof (op_E5 _ Hd) as (t1 & Heq & Hop); injection Heq as ->; exact Hop).
    assert (Hso : sound t) by (split; auto).
    destruct (derives_wlevel _ Hd) as (jss & Hw). cbn in Hw. rewrite app_nil_r in Hw.
    rewrite (wlevel_shape _ _ Hw), <- (safe_level_dev jss (wl_all _ _ Hw)). split.
    - intros Ht. destruct (node_level _ _ Ht t Hso Hop Hn) as (jss' & Hl). pose proof (wlevel_shape _ _ (level_word _ _ Hl Hr)) as H1.
      rewrite (wlevel_shape _ _ Hw) in H1. subst jss'. eapply (level_conv c K kc R); eassumption.
    - intros Hsafe. destruct (level_sel c K kc R Hc Hkc HKv HKo jss (leaves t) Hw Hsafe) as (t' & Hl & Hlv & Hs').
      destruct (selects_det _ _ _ _ _ Hs _ _ Hs') as [Heq _]. injection Heq as <-. eapply level_node; eassumption.
  Qed.
End Nodes.
