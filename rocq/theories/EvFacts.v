(** The tree builder as a recursive function on derivation trees. *)
From Coq Require Import String.
From Verif Require Import Base Regex LexRules Lexer Grammar Antlr Ast Builder Parser LexSpec LitSpec LexThms
  GramSpec GramFacts ValueSpec ValueFacts SpellSpec BuilderFacts BuilderRules ParseSpec ParseFacts.
Local Open Scope Z_scope.

(** Rules whose visit pushes no node. *)
Definition valueless (r : rule) : bool :=
  match r with
  | quantifier | attribute | qualifier | identifier | regexp | regexp_pattern | regexp_flag => true
  | _ => false
  end.

Section Ev.
  Variables (E : penv) (C : pcfg).
  Definition ev_regexp (ch : list ptree) : option (pystr * flags) :=
    match find_rule regexp ch with
    | Some (Node _ cr) =>
        match find_rule regexp_pattern cr with
        | Some p =>
            match regexp_value E C (get_text p),
                  (match find_rule regexp_flag cr with Some f => regexp_flags (get_text f) | None => Ok no_flags end) with
            | Ok v, Ok fl => Some (v, fl)
            | _, _ => None
            end
        | None => None
        end
    | _ => None
    end.
  Definition ev_attribute (ch : list ptree) : option (pystr * pystr) :=
    match find_rule attribute ch with
    | Some (Node _ ca) =>
        match find_rule identifier ca with
        | Some i => Some (match find_rule qualifier ca with Some q => get_text q | None => [] end, get_text i)
        | None => None
        end
    | _ => None
    end.
  Definition ev_node (r : rule) (t : ptree) (ch : list ptree) (qs : option (list qnode)) : option qnode :=
    let loc := fromContext t in
    match r with
    | query =>
        match find_rule within_part ch, qs with
        | None, Some [n] => Some n
        | Some _, Some [n; w] => Some (QN PWithWithin loc [n; w])
        | _, _ => None
        end
    | query_disjunction => option_map (QN PDisjunction loc) qs
    | query_sequence => option_map (QN PSequence loc) qs
    | expression_or => option_map (QN POr loc) qs
    | expression_and => option_map (QN PAnd loc) qs
    | query_group =>
        match qs, repetition E ch with Some [n], Ok (mn, mx) => Some (QN (PQGroup mn mx) loc [n]) | _, _ => None end
    | query_simple =>
        match qs, repetition E ch with Some [n], Ok (mn, mx) => Some (QN (PSegment mn mx) loc [n]) | _, _ => None end
    | query_implicit =>
        match ev_regexp ch with
        | Some (v, fl) => Some (QN (PExpr None (default_identifier C) (default_operator C) v (opt_flags fl)) loc [])
        | None => None
        end
    | query_segment =>
        if (List.length ch =? 2)%nat then Some (QN PWildcard loc [])
        else match qs with Some [n] => Some n | _ => None end
    | expression_group => match qs with Some [n] => Some (QN PExprGroup loc [n]) | _ => None end
    | expression_not => match qs with Some [n] => Some (QN PNot loc [n]) | _ => None end
    | expression_basic =>
        match ev_attribute ch, ev_regexp ch with
        | Some (q, i), Some (v, fl) =>
            Some (QN (mk_expression (Some q) i (if has_token OPERATOR_EQ ch then EQUALS else NOT_EQUALS) v (Some fl)) loc [])
        | _, _ => None
        end
    | within_part_simple =>
        match ch with
        | c :: _ => match within_scope (get_text c) with Ok sc => Some (QN (PSimpleWithin sc) loc []) | _ => None end
        | [] => None
        end
    | main_query | within_part | expression => match qs with Some [n] => Some n | _ => None end
    | quantifier | attribute | qualifier | identifier | regexp | regexp_pattern | regexp_flag => None
    end.
  Fixpoint ev (t : ptree) : option qnode :=
    match t with
    | Leaf _ => None
    | Node r ch =>
        ev_node r t ch
          ((fix go (l : list ptree) : option (list qnode) :=
              match l with
              | [] => Some []
              | Leaf _ :: l' => go l'
              | Node r' ch' as c :: l' =>
                  if valueless r' then go l'
                  else match ev c, go l' with Some n, Some ns => Some (n :: ns) | _, _ => None end
              end) ch)
    end.
  Fixpoint evs (l : list ptree) : option (list qnode) :=
    match l with
    | [] => Some []
    | Leaf _ :: l' => evs l'
    | Node r' ch' as c :: l' =>
        if valueless r' then evs l'
        else match ev c, evs l' with Some n, Some ns => Some (n :: ns) | _, _ => None end
    end.
  Lemma ev_eq r ch : ev (Node r ch) = ev_node r (Node r ch) ch (evs ch).
  Proof. reflexivity. Qed.

  Lemma conds_weaken_app xs ys : conds E (xs ++ ys) -> conds E xs /\ conds E ys.
  Proof.
    induction xs as [|t xs IH]; cbn [app conds]; [auto|]. intros [(A & B & D & F) H]. destruct (IH H) as [H1 H2].
    split; [|exact H2]. split; [|exact H1]. split; [exact A|]. split; [|split; [exact D|]].
    - intros Ht f r' -> Hf. eapply B; eauto. reflexivity.
    - intros Ht c b r' -> Hc Hb. eapply F; eauto. reflexivity.
  Qed.

  Definition child_ev (t : ptree) : Prop :=
    match t with
    | Leaf _ => True
    | Node r ch => if valueless r then True else conds E (leaves t) -> exists n, ev t = Some n /\ yields E C t n
    end.

  (** Children lists without strings on the stack. *)
  Definition nodes_only (ch : list ptree) : bool :=
    forallb (fun t => match t with Leaf _ => true | Node r _ => rule_eqb r quantifier || negb (valueless r) end) ch.
  Lemma evs_yields ch : Forall child_ev ch -> Forall (child_spec E C) ch -> nodes_only ch = true -> conds E (flat_map leaves ch) ->
    exists qs, evs ch = Some qs /\ yields_ch E C ch qs.
  Proof.
    induction 1 as [|c ch Hc _ IH]; intros Hs Hn Hcd.
    - exists []. split; [reflexivity|apply yields_ch_nil].
    - inversion Hs; subst. cbn [nodes_only forallb] in Hn. apply andb_true_iff in Hn. destruct Hn as [Hn1 Hn2].
      cbn [flat_map] in Hcd. apply conds_weaken_app in Hcd. destruct Hcd as [Hcd1 Hcd2].
      destruct (IH ltac:(assumption) Hn2 Hcd2) as (qs & Hqs & Hy). destruct c as [k|r cc].
      + exists qs. split; [exact Hqs|]. apply yields_ch_leaf. exact Hy.
      + cbn [child_ev] in Hc. cbn [evs]. destruct (valueless r) eqn:Hv.
        * rewrite orb_false_r in Hn1. unfold rule_eqb in Hn1. destruct (rule_eq_dec r quantifier); [subst r|discriminate].
          exists qs. split; [exact Hqs|]. match goal with H : child_spec E C _ |- _ => destruct H as (ts & Heq & _) end. injection Heq as ->.
          intros H Nd nn sl b s h. cbn [visit_ch]. rewrite visit_node. cbn [visit_rule]. rewrite visit_ch_leaves. apply Hy.
        * destruct (Hc Hcd1) as (n & Hn & Hyn). exists (n :: qs). rewrite Hn, Hqs. split; [reflexivity|].
          apply yields_ch_cons; assumption.
  Qed.

  (** Reading off what was built. *)
  Lemma yields_value t n : yields E C t n ->
    visit_tree new_tree set_loc_tree E (at_loc C true) t ([], tt) = Ok ([SNode n], tt).
  Proof. intros H. rewrite H, alloc_tree. reflexivity. Qed.
  Lemma yields_ch_value l qs s : yields_ch E C l qs ->
    visit_ch new_tree set_loc_tree E (at_loc C true) l (s, tt) = Ok (map SNode (rev qs) ++ s, tt).
  Proof.
    intros H. rewrite H. assert (Hl : forall qs, alloc_list new_tree set_loc_tree true qs tt = (tt, qs)).
    { induction qs0 as [|c cs IH]; [reflexivity|]. cbn [alloc_list]. rewrite alloc_tree, IH. reflexivity. }
    rewrite Hl. reflexivity.
  Qed.
  Lemma build_value t p cs s : build new_tree set_loc_tree (at_loc C true) t p cs (s, tt) = (SNode (QN p (fromContext t) cs) :: s, tt).
  Proof. reflexivity. Qed.
  Lemma list_value nm p t l qs : yields_ch E C l qs ->
    forall n, visit_list new_tree set_loc_tree (at_loc C true) nm p t (visit_ch new_tree set_loc_tree E (at_loc C true) l) ([], tt) = Ok ([SNode n], tt) ->
    n = QN p (fromContext t) qs.
  Proof.
    intros Hy n. unfold visit_list. rewrite (yields_ch_value l qs [] Hy). cbn [rbind fst snd List.length]. rewrite app_nil_r, map_length, rev_length.
    destruct (0 <? List.length qs)%nat; [|discriminate]. rewrite Nat.sub_0_r.
    pose proof (take_nodes_spec (H := unit) qs [] [] tt) as Ht. rewrite app_nil_r in Ht. rewrite Ht. cbn [rbind]. rewrite app_nil_r, build_value.
    congruence.
  Qed.
  Lemma pop_one qs (n : qnode) f :
    rbind (pop_node (Nd := qnode) (H := unit) (map SNode (rev qs), tt)) (fun '(c, s2) => Ok (f c s2)) = Ok ([SNode n], tt) ->
    (forall c s, exists m, f c (s, tt) = (SNode m :: s, tt)) ->
    exists q, qs = [q] /\ f q ([], tt) = ([SNode n], tt).
  Proof.
    intros H Hf. destruct qs as [|x qs _] using rev_ind; [discriminate|]. rewrite rev_app_distr in H. cbn in H.
    destruct (Hf x (map SNode (rev qs))) as (m & Hm). rewrite Hm in H. injection H as Hm' Hs.
    apply map_eq_nil in Hs. apply (f_equal (@rev _)) in Hs. rewrite rev_involutive in Hs. cbn in Hs. subst.
    exists x. split; [reflexivity|exact Hm].
  Qed.

  (** Which children may occur. *)
  Fixpoint nodes_only_e (e : ebnf) : bool :=
    match e with
    | Tk _ => true
    | NT r => rule_eqb r quantifier || negb (valueless r)
    | Sq a b | Al a b => nodes_only_e a && nodes_only_e b
    | Op a | Pl a | St a => nodes_only_e a
    end.
  Lemma nodes_only_derives e x : derives e x -> nodes_only_e e = true -> nodes_only x = true.
  Proof.
    unfold nodes_only.
    induction 1 as [l t Hin|r ch Hd IH|a b x y _ IH1 _ IH2|a b x _ IH|a b x _ IH|e|e x _ IH|e x y _ IH1 _ IH2|e|e x y _ IH1 _ IH2];
      cbn [nodes_only_e]; intros He; try reflexivity; auto;
      try (apply andb_true_iff in He; destruct He); rewrite ?forallb_app, ?andb_true_iff; auto.
    cbn [forallb]. rewrite He. reflexivity.
  Qed.

  (** What a valued rule yields. *)
  Lemma spec_yields r ch : valueless r = false -> spec E C r (Node r ch) -> conds E (leaves (Node r ch)) ->
    exists n, yields E C (Node r ch) n.
  Proof.
    intros Hv Hs Hc. destruct r; try discriminate Hv; cbn [spec] in Hs; destruct Hs as [_ [(n & _ & _ & Hy)|[Hn _]]];
      try contradiction; exists n; exact Hy.
  Qed.

  Lemma regexp_ev cr : derives (body regexp) cr -> conds E (leaves (Node regexp cr)) -> spec E C regexp (Node regexp cr) ->
    exists v fl, (forall pre post, Forall (fun t => match t with Node regexp _ => False | _ => True end) pre ->
        ev_regexp (pre ++ Node regexp cr :: post) = Some (v, fl)) /\
      forall H Nd nn sl b s (h : H), visit_tree (Nd := Nd) nn sl E (at_loc C b) (Node regexp cr) (s, h) = Ok (SFlags fl :: SStr v :: s, h).
  Proof.
    intros Hd Hc Hs. destruct Hs as [_ [(v & fl & _ & _ & Hv)|[Hn _]]]; [|contradiction].
    exists v, fl. split; [|exact Hv]. intros pre post Hpre. unfold ev_regexp.
    assert (Hf : find_rule regexp (pre ++ Node regexp cr :: post) = Some (Node regexp cr)).
    { unfold find_rule. induction Hpre as [|c pre Hc' _ IH]; [reflexivity|]. cbn [find app]. destruct c as [k|r cc]; [exact IH|].
      destruct r; cbn; try exact IH. destruct Hc'. }
    rewrite Hf. specialize (Hv unit qnode new_tree set_loc_tree true [] tt). rewrite visit_node in Hv. cbn [visit_rule] in Hv.
    unfold visitRegexp in Hv. destruct (find_rule regexp_pattern cr) as [p|]; [|discriminate].
    change (regexp_value E (at_loc C true) (get_text p)) with (regexp_value E C (get_text p)) in Hv.
    destruct (regexp_value E C (get_text p)) as [x|]; [|discriminate]. cbn [rbind] in Hv.
    destruct (find_rule regexp_flag cr) as [f|].
    - destruct (regexp_flags (get_text f)); [|discriminate]. cbn in Hv. unfold push in Hv; cbn in Hv; congruence.
    - unfold push in Hv; cbn in Hv. congruence.
  Qed.

  Ltac evs_of ch Hd Hev Hsp Hcd Hq Hy := let qs := fresh "qs" in
    destruct (evs_yields ch Hev Hsp (nodes_only_derives _ _ Hd eq_refl) Hcd) as (qs & Hq & Hy).

  Lemma rule_ev r ch : derives (body r) ch -> Forall (child_spec E C) ch -> Forall child_ev ch -> spec E C r (Node r ch) ->
    child_ev (Node r ch).
  Proof.
    intros Hd Hsp Hev Hs. cbn [child_ev]. destruct (valueless r) eqn:Hv; [exact I|]. intros Hc.
    destruct (spec_yields r ch Hv Hs Hc) as (n & Hy). exists n. split; [|exact Hy].
    apply yields_value in Hy. rewrite visit_node in Hy. rewrite ev_eq.
    assert (Hcd : conds E (flat_map leaves ch)) by exact Hc.
    destruct r; try discriminate Hv; cbn [visit_rule] in Hy; cbn [ev_node].
    - (* query *)
      evs_of ch Hd Hev Hsp Hcd Hq Hyc. rewrite Hq. unfold visitQuery in Hy.
      rewrite (yields_ch_value _ _ [] Hyc) in Hy. cbn [rbind] in Hy. rewrite app_nil_r in Hy.
      destruct (find_rule within_part ch).
      + destruct qs as [|w qs _] using rev_ind; [discriminate|]. destruct qs as [|m qs _] using rev_ind; [discriminate|].
        rewrite !rev_app_distr in Hy. cbn in Hy. injection Hy as Hm Hs'. apply map_eq_nil in Hs'.
        apply (f_equal (@rev _)) in Hs'. rewrite rev_involutive in Hs'. cbn in Hs'. subst. reflexivity.
      + injection Hy as Hm. destruct qs as [|w qs _] using rev_ind; [discriminate|]. rewrite rev_app_distr in Hm. cbn in Hm.
        injection Hm as -> Hs'. apply map_eq_nil in Hs'. apply (f_equal (@rev _)) in Hs'. rewrite rev_involutive in Hs'. cbn in Hs'. subst. reflexivity.
    - evs_of ch Hd Hev Hsp Hcd Hq Hyc. rewrite Hq. rewrite (yields_ch_value _ _ [] Hyc) in Hy. rewrite app_nil_r in Hy. injection Hy as Hm.
      destruct qs as [|w qs _] using rev_ind; [discriminate|]. rewrite rev_app_distr in Hm. cbn in Hm.
      injection Hm as -> Hs'. apply map_eq_nil in Hs'. apply (f_equal (@rev _)) in Hs'. rewrite rev_involutive in Hs'. cbn in Hs'. subst. reflexivity.
    - evs_of ch Hd Hev Hsp Hcd Hq Hyc. rewrite Hq. rewrite (list_value _ _ _ _ _ Hyc _ Hy). reflexivity.
    - evs_of ch Hd Hev Hsp Hcd Hq Hyc. rewrite Hq. rewrite (list_value _ _ _ _ _ Hyc _ Hy). reflexivity.
    - evs_of ch Hd Hev Hsp Hcd Hq Hyc. rewrite Hq. unfold visitQuery_group in Hy. rewrite (yields_ch_value _ _ [] Hyc) in Hy.
      rewrite app_nil_r in Hy. cbn [rbind] in Hy. destruct (repetition E ch) as [[mn mx]|]; [|discriminate]. cbn [rbind] in Hy.
      apply pop_one in Hy; [|intros; eexists; reflexivity]. destruct Hy as (q & -> & Hy). rewrite build_value in Hy. congruence.
    - evs_of ch Hd Hev Hsp Hcd Hq Hyc. rewrite Hq. unfold visitQuery_simple in Hy. rewrite (yields_ch_value _ _ [] Hyc) in Hy.
      rewrite app_nil_r in Hy. cbn [rbind] in Hy. destruct (repetition E ch) as [[mn mx]|]; [|discriminate]. cbn [rbind] in Hy.
      apply pop_one in Hy; [|intros; eexists; reflexivity]. destruct Hy as (q & -> & Hy). rewrite build_value in Hy. congruence.
    - (* implicit *)
      cbn [body] in Hd. inv_derives. inversion Hsp as [|? ? Hsr _]; subst. cbn [child_spec] in Hsr.
      match goal with H : derives (body regexp) ?x |- _ => destruct (regexp_ev x H) as (v & fl & He & Hvis) end;
        [cbn [flat_map] in Hcd; rewrite app_nil_r in Hcd; exact Hcd|exact Hsr|].
      specialize (He [] [] ltac:(constructor)). cbn [app] in He. rewrite He.
      unfold visitQuery_implicit, push in Hy. cbn [visit_ch fst snd] in Hy. rewrite Hvis in Hy. cbn [rbind] in Hy.
      pose proof (finish_spec C _ _ new_tree set_loc_tree true (Node query_implicit [Node regexp ch0]) fl v None (default_identifier C) (default_operator C) [] tt
        ltac:(discriminate)) as Hf. cbn [default_identifier default_operator at_loc] in *. rewrite Hf, alloc_tree in Hy. cbn [with_locs] in Hy. congruence.
    - (* segment *)
      unfold visitQuery_segment in Hy. destruct (List.length ch =? 2)%nat; [rewrite build_value in Hy; congruence|].
      evs_of ch Hd Hev Hsp Hcd Hq Hyc. rewrite Hq. rewrite (yields_ch_value _ _ [] Hyc) in Hy. rewrite app_nil_r in Hy. injection Hy as Hm.
      destruct qs as [|w qs _] using rev_ind; [discriminate|]. rewrite rev_app_distr in Hm. cbn in Hm.
      injection Hm as -> Hs'. apply map_eq_nil in Hs'. apply (f_equal (@rev _)) in Hs'. rewrite rev_involutive in Hs'. cbn in Hs'. subst. reflexivity.
    - evs_of ch Hd Hev Hsp Hcd Hq Hyc. rewrite Hq. rewrite (yields_ch_value _ _ [] Hyc) in Hy. rewrite app_nil_r in Hy. injection Hy as Hm.
      destruct qs as [|w qs _] using rev_ind; [discriminate|]. rewrite rev_app_distr in Hm. cbn in Hm.
      injection Hm as -> Hs'. apply map_eq_nil in Hs'. apply (f_equal (@rev _)) in Hs'. rewrite rev_involutive in Hs'. cbn in Hs'. subst. reflexivity.
    - unfold visitWithin_part_simple in Hy. destruct ch as [|c ch']; [discriminate|].
      destruct (within_scope (get_text c)); [|discriminate]. cbn in Hy. congruence.
    - evs_of ch Hd Hev Hsp Hcd Hq Hyc. rewrite Hq. rewrite (yields_ch_value _ _ [] Hyc) in Hy. rewrite app_nil_r in Hy. injection Hy as Hm.
      destruct qs as [|w qs _] using rev_ind; [discriminate|]. rewrite rev_app_distr in Hm. cbn in Hm.
      injection Hm as -> Hs'. apply map_eq_nil in Hs'. apply (f_equal (@rev _)) in Hs'. rewrite rev_involutive in Hs'. cbn in Hs'. subst. reflexivity.
    - evs_of ch Hd Hev Hsp Hcd Hq Hyc. rewrite Hq. rewrite (list_value _ _ _ _ _ Hyc _ Hy). reflexivity.
    - evs_of ch Hd Hev Hsp Hcd Hq Hyc. rewrite Hq. rewrite (list_value _ _ _ _ _ Hyc _ Hy). reflexivity.
    - evs_of ch Hd Hev Hsp Hcd Hq Hyc. rewrite Hq. unfold visit_unary in Hy. rewrite (yields_ch_value _ _ [] Hyc) in Hy.
      rewrite app_nil_r in Hy. cbn [rbind] in Hy.
      apply pop_one in Hy; [|intros; eexists; reflexivity]. destruct Hy as (q & -> & Hy). rewrite build_value in Hy. congruence.
    - evs_of ch Hd Hev Hsp Hcd Hq Hyc. rewrite Hq. unfold visit_unary in Hy. rewrite (yields_ch_value _ _ [] Hyc) in Hy.
      rewrite app_nil_r in Hy. cbn [rbind] in Hy.
      apply pop_one in Hy; [|intros; eexists; reflexivity]. destruct Hy as (q & -> & Hy). rewrite build_value in Hy. congruence.
    - (* basic *)
      cbn [body] in Hd. inversion Hd as [| |? ? xa x1 Ha Hd1| | | | | | |]; subst. clear Hd. inversion Hd1 as [| |? ? xo xr Ho Hr| | | | | | |]; subst. clear Hd1.
      inversion Ha as [|? ca Hca| | | | | | | |]; subst. inversion Hr as [|? cr Hcr| | | | | | | |]; subst. inversion Ho as [? o Hio| | | | | | | | |]; subst. cbn [app] in *.
      inversion Hsp as [|? ? Hs1 Hsp1]; subst. inversion Hsp1 as [|? ? Hs2 Hsp2]; subst. inversion Hsp2 as [|? ? Hs3 _]; subst. cbn [child_spec spec] in Hs1, Hs3.
      assert (Hcr' : conds E (leaves (Node regexp cr))).
      { cbn [flat_map] in Hcd. rewrite app_nil_r in Hcd. apply conds_weaken_app in Hcd. destruct Hcd as [_ Hcd]. apply conds_weaken_app in Hcd. apply Hcd. }
      destruct (regexp_ev cr Hcr Hcr' Hs3) as (v & fl & He & Hvis).
      specialize (He [Node attribute ca; Leaf o] [] ltac:(repeat constructor)). cbn [app] in He. rewrite He.
      destruct Hs1 as (_ & _ & qual & i & _ & Hsol & Hva).
      assert (Hat : ev_attribute [Node attribute ca; Leaf o; Node regexp cr] = Some (match qual with Some x => x | None => [] end, i)).
      { unfold ev_attribute. cbn. specialize (Hva unit qnode new_tree set_loc_tree true [] tt). rewrite visit_node in Hva. cbn [visit_rule] in Hva.
        unfold visitAttribute in Hva. destruct (find_rule identifier ca); [|discriminate]. unfold push in Hva; cbn in Hva. congruence. }
      rewrite Hat. unfold visitExpression_basic in Hy.
      assert (Hop : exists op, (if has_token OPERATOR_EQ [Node attribute ca; Leaf o; Node regexp cr] then EQUALS else NOT_EQUALS) = op /\
         (if has_token OPERATOR_EQ [Node attribute ca; Leaf o; Node regexp cr] then Ok (push (Nd:=qnode) (SOp EQUALS) ([], tt))
          else if has_token OPERATOR_NE [Node attribute ca; Leaf o; Node regexp cr] then Ok (push (SOp NOT_EQUALS) ([], tt)) else Raise AttributeError)
         = Ok ([SOp op], tt)).
      { destruct (has_token OPERATOR_EQ _) eqn:H1; [eauto|]. exists NOT_EQUALS. split; [reflexivity|].
        unfold has_token, find_token in *. cbn [find] in *. unfold ttype_eqb in *. destruct Hio as [Hio|[Hio|[]]]; rewrite <- Hio in *; [discriminate|reflexivity]. }
      destruct Hop as (op & Hop1 & Hop2). rewrite Hop1. rewrite Hop2 in Hy. cbn [rbind visit_ch] in Hy. rewrite Hva in Hy. cbn [rbind] in Hy.
      rewrite visit_leaf in Hy. cbn [rbind] in Hy. rewrite Hvis in Hy. cbn [rbind] in Hy.
      rewrite finish_spec in Hy by exact Hsol. rewrite alloc_tree in Hy. cbn [with_locs] in Hy. injection Hy as <-.
      do 2 f_equal. unfold mk_expression, opt_flags. f_equal. destruct qual as [qs|]; [|reflexivity].
      destruct (Hsol qs eq_refl) as [Hne Hs']. destruct qs; [contradiction|]. rewrite Hs'. reflexivity.
  Qed.

  Lemma derives_ev e x : derives e x -> Forall tok_ok (flat_map leaves x) -> Forall child_ev x.
  Proof.
    induction 1 as [l t Hin|r ch Hd IH|a b x y _ IH1 _ IH2|a b x _ IH|a b x _ IH|e|e x _ IH|e x y _ IH1 _ IH2|e|e x y _ IH1 _ IH2];
      rewrite ?flat_map_app; intros Ht; rewrite ?Forall_app in *.
    - constructor; [exact I|constructor].
    - cbn in Ht. rewrite app_nil_r in Ht. constructor; [|constructor].
      pose proof (derives_spec E C _ _ Hd Ht) as Hsp. apply rule_ev; auto. apply rule_spec; assumption.
    - destruct Ht. auto.
    - auto.
    - auto.
    - constructor.
    - auto.
    - destruct Ht. auto.
    - constructor.
    - destruct Ht. auto.
  Qed.

  Lemma query_ev t : parse_tree query t -> Forall tok_ok (leaves t) -> conds E (leaves t) ->
    exists n, ev t = Some n /\ yields E C t n.
  Proof.
    intros Hp Ht Hc. pose proof (derives_ev _ _ Hp) as H. cbn in H. rewrite app_nil_r in H. specialize (H Ht). inversion H; subst.
    inversion Hp; subst. cbn [child_ev valueless] in *. auto.
  Qed.
  Lemma yields_det t n n' : yields E C t n -> yields E C t n' -> n = n'.
  Proof. intros H H'. apply yields_value in H. apply yields_value in H'. congruence. Qed.
End Ev.

(** [parse] in terms of [ev]. *)
Lemma parse_ev V P q n : env_ok V -> parse V P q = Ok n ->
  exists t m, antlr_query (tokens q) = Some t /\ parse_tree query t /\ leaves t = tokens q /\
    ev (e_penv V) (qp_cfg P) t = Some m /\ sp_query (e_penv V) (qp_cfg P) (tokens q) m /\
    n = with_locs (enableSourceLocations (qp_cfg P)) m.
Proof.
  intros HV H. destruct (parse_outcome V P q HV) as [(m & [Hw Ha] & B & (t & Ht & Hy) & D)|(_ & m & D)]; rewrite D in H; [|discriminate].
  destruct (antlr_tree q (proj2 Hw)) as (t' & Ht' & Hp & Hl). rewrite Ht in Ht'. injection Ht' as <-.
  destruct (query_ev (e_penv V) (qp_cfg P) t Hp) as (m' & Hm' & Hy'); [rewrite Hl; apply tokens_ok|rewrite Hl; apply texts_ok_conds; exact Ha|].
  rewrite <- (yields_det _ _ _ _ _ Hy Hy') in Hm'. exists t, m. injection H as <-. auto 10.
Qed.
