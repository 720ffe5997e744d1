(** The tree builder on derivation trees: it never misuses its stack, raises
    exactly if the token texts are not acceptable, and otherwise builds a tree
    that the specification assigns to the tokens. *)
From Coq Require Import String.
From Verif Require Import Base Regex LexRules Lexer Grammar Antlr Ast Builder RegexFacts LexSpec LitSpec LexFacts
  LexRuleFacts LexThms GramSpec GramFacts ValueSpec ValueFacts SpellSpec.
Local Open Scope Z_scope.

(** ** Token conditions, recursively *)
Section Conds.
  Variable E : penv.
  Definition cond1 (t : token) (r : list token) : Prop :=
    (t_type t = REGEXP -> decodable (t_text t)) /\
    (t_type t = FWD_SLASH -> forall f r', r = f :: r' -> t_type f = REGEXP_FLAGS -> flags_ok (t_text f)) /\
    (t_type t = INTEGER -> int_ok E (t_text t)) /\
    (t_type t = INTEGER -> forall c b r', r = c :: b :: r' -> t_type c = Q_COMMA -> t_type b = INTEGER ->
       dec_value (t_text t) <= dec_value (t_text b)).
  Fixpoint conds (ts : list token) : Prop :=
    match ts with [] => True | t :: r => cond1 t r /\ conds r end.

  Lemma texts_ok_nil : texts_ok E [].
  Proof. split; [intros ? []|split; [|split; [intros ? []|]]]; intros [|? ?] *; discriminate. Qed.
  Lemma texts_ok_cons t r : texts_ok E (t :: r) <-> cond1 t r /\ texts_ok E r.
  Proof.
    split.
    - intros (A & B & D & F). split.
      + split; [|split; [|split]].
        * apply A. left; reflexivity.
        * intros Ht f r' -> Hf. apply (B [] t f r'); auto.
        * apply D. left; reflexivity.
        * intros Ht c b r' -> Hc Hb. apply (F [] t c b r'); auto.
      + split; [|split; [|split]].
        * intros x Hx. apply A. right; exact Hx.
        * intros pre s f post ->. apply (B (t :: pre) s f post). reflexivity.
        * intros x Hx. apply D. right; exact Hx.
        * intros pre a c b post ->. apply (F (t :: pre) a c b post). reflexivity.
    - intros ((A & B & D & F) & (A' & B' & D' & F')). split; [|split; [|split]].
      + intros x [<-|Hx]; auto.
      + intros [|p pre] s f post H; cbn in H; injection H as -> ->; intros; [eapply B; eauto|eapply B'; eauto].
      + intros x [<-|Hx]; auto.
      + intros [|p pre] a c b post H; cbn in H; injection H as -> ->; intros; [eapply F; eauto|eapply F'; eauto].
  Qed.
  Lemma texts_ok_conds ts : texts_ok E ts <-> conds ts.
  Proof.
    induction ts as [|t r IH]; [split; [exact (fun _ => I)|intros _; apply texts_ok_nil]|].
    rewrite texts_ok_cons, IH. reflexivity.
  Qed.

  Definition good_end (ts : list token) : Prop :=
    exists ts' k, ts = ts' ++ [k] /\ ~ In (t_type k) [FWD_SLASH; INTEGER; Q_COMMA].
  Lemma good_end_app xs ys : good_end ys -> good_end (xs ++ ys).
  Proof. intros (y & k & -> & H). exists (xs ++ y), k. rewrite app_assoc. auto. Qed.
  Lemma good_end_cons x ys : good_end ys -> good_end (x :: ys).
  Proof. apply (good_end_app [x]). Qed.
  Lemma good_end_one k : ~ In (t_type k) [FWD_SLASH; INTEGER; Q_COMMA] -> good_end [k].
  Proof. exists [], k. auto. Qed.
  Lemma good_end_ne xs : good_end xs -> xs <> [].
  Proof. intros (y & k & -> & _). destruct y; discriminate. Qed.

  Lemma conds_app xs ys : good_end xs -> conds (xs ++ ys) <-> conds xs /\ conds ys.
  Proof.
    intros (x & k & -> & Hk). induction x as [|t x IH]; cbn [app conds].
    - split.
      + intros [(A & B & D & F) H]. split; [|exact H]. split; [|exact I]. split; [|split; [|split]]; auto; intros; discriminate.
      + intros [[(A & B & D & F) _] H]. split; [|exact H]. split; [exact A|split; [|split; [exact D|]]].
        * intros Ht. exfalso. apply Hk. rewrite Ht. cbn; tauto.
        * intros Ht. exfalso. apply Hk. rewrite Ht. cbn; tauto.
    - rewrite IH. enough (cond1 t ((x ++ [k]) ++ ys) <-> cond1 t (x ++ [k])) by tauto. clear IH.
      unfold cond1. destruct x as [|a [|b x]]; cbn [app].
      + split; intros (A & B & D & F); (split; [exact A|split; [|split; [exact D|]]]).
        * intros Ht f r' H. injection H as -> <-. intros Hf. eapply B; eauto.
        * intros; discriminate.
        * intros Ht f r' H. injection H as -> <-. intros Hf. eapply B; eauto.
        * intros Ht c b r' H. injection H as -> ->. intros Hc. exfalso. apply Hk. rewrite Hc. cbn; tauto.
      + split; intros (A & B & D & F); (split; [exact A|split; [|split; [exact D|]]]).
        * intros Ht f r' H. injection H as -> <-. intros Hf. eapply B; eauto.
        * intros Ht c b r' H. injection H as -> -> <-. intros Hc Hb. eapply F; eauto.
        * intros Ht f r' H. injection H as -> <-. intros Hf. eapply B; eauto.
        * intros Ht c b r' H. injection H as -> -> <-. intros Hc Hb. eapply F; eauto.
      + split; intros (A & B & D & F); (split; [exact A|split; [|split; [exact D|]]]).
        * intros Ht f r' H. injection H as -> <-. intros Hf. eapply B; eauto.
        * intros Ht c b' r' H. injection H as -> -> <-. intros Hc Hb. eapply F; eauto.
        * intros Ht f r' H. injection H as -> <-. intros Hf. eapply B; eauto.
        * intros Ht c b' r' H. injection H as -> -> <-. intros Hc Hb. eapply F; eauto.
  Qed.

  Lemma conds_one k : ~ In (t_type k) [REGEXP; FWD_SLASH; INTEGER; Q_COMMA] -> conds [k].
  Proof. intros H. split; [|exact I]. repeat split; intros Hk; exfalso; apply H; rewrite Hk; cbn; tauto. Qed.
  Lemma conds_cons k ts : ~ In (t_type k) [REGEXP; FWD_SLASH; INTEGER; Q_COMMA] -> conds (k :: ts) <-> conds ts.
  Proof.
    intros H. change (k :: ts) with ([k] ++ ts). rewrite conds_app.
    - pose proof (conds_one k H). tauto.
    - apply good_end_one. cbn in *. tauto.
  Qed.
  Lemma conds_snoc ts k : good_end ts -> ~ In (t_type k) [REGEXP; FWD_SLASH; INTEGER; Q_COMMA] ->
    conds (ts ++ [k]) <-> conds ts.
  Proof. intros Hg H. rewrite conds_app by exact Hg. pose proof (conds_one k H). tauto. Qed.
End Conds.

(** ** Construction order *)
Definition at_loc (C : pcfg) (b : bool) : pcfg :=
  mkCfg (default_identifier C) (default_operator C) (unicode_normalization_form C) b.
Lemma at_loc_self C : at_loc C (enableSourceLocations C) = C.
Proof. destruct C; reflexivity. Qed.

(** Constructing a whole tree: children first, left to right. *)
Section Alloc.
  Context {H Nd : Type} (new_node : payload -> list Nd -> H -> H * Nd)
          (set_loc : Nd -> option sloc -> H -> H * Nd) (b : bool).
  Definition alloc1 (p : payload) (l : option sloc) (r : H * list Nd) : H * Nd :=
    let (h1, ns) := r in
    let (h2, n) := new_node p ns h1 in
    if b then set_loc n l h2 else (h2, n).
  Fixpoint alloc (n : qnode) (h : H) : H * Nd :=
    match n with
    | QN p l ch =>
        alloc1 p l
          ((fix go (l : list qnode) (h : H) : H * list Nd :=
              match l with
              | [] => (h, [])
              | c :: l' => let (h1, n1) := alloc c h in let (h2, ns) := go l' h1 in (h2, n1 :: ns)
              end) ch h)
    end.
  Fixpoint alloc_list (l : list qnode) (h : H) : H * list Nd :=
    match l with
    | [] => (h, [])
    | c :: l' => let (h1, n1) := alloc c h in let (h2, ns) := alloc_list l' h1 in (h2, n1 :: ns)
    end.
  Lemma alloc_eq p l ch h : alloc (QN p l ch) h = alloc1 p l (alloc_list ch h).
  Proof. reflexivity. Qed.
  Lemma alloc_list_app l1 l2 h : alloc_list (l1 ++ l2) h =
    let (h1, n1) := alloc_list l1 h in let (h2, n2) := alloc_list l2 h1 in (h2, n1 ++ n2).
  Proof.
    revert h. induction l1 as [|c l1 IH]; intros h; cbn [alloc_list app].
    - destruct (alloc_list l2 h). reflexivity.
    - destruct (alloc c h). rewrite IH. destruct (alloc_list l1 h0). destruct (alloc_list l2 h1). reflexivity.
  Qed.
  Lemma alloc_list_length l : forall h, List.length (snd (alloc_list l h)) = List.length l.
  Proof.
    induction l as [|c l IH]; intros h; [reflexivity|]. cbn [alloc_list]. destruct (alloc c h) as [h1 n].
    specialize (IH h1). destruct (alloc_list l h1). cbn in *. congruence.
  Qed.
End Alloc.

(** Children visited in order. *)
Section VisitCh.
  Context {H Nd : Type} (new_node : payload -> list Nd -> H -> H * Nd)
          (set_loc : Nd -> option sloc -> H -> H * Nd).
  Variables (E : penv) (C : pcfg).
  Fixpoint visit_ch (l : list ptree) (s : st) : res st :=
    match l with
    | [] => Ok s
    | c :: l' => rbind (visit_tree new_node set_loc E C c s) (visit_ch l')
    end.
  Lemma visit_node r ch s : visit_tree new_node set_loc E C (Node r ch) s =
    visit_rule new_node set_loc E C r (Node r ch) ch (visit_ch ch) s.
  Proof. reflexivity. Qed.
  Lemma visit_leaf k s : visit_tree new_node set_loc E C (Leaf k) s = Ok s.
  Proof. reflexivity. Qed.
  Lemma visit_ch_app l1 l2 s : visit_ch (l1 ++ l2) s = rbind (visit_ch l1 s) (visit_ch l2).
  Proof.
    revert s. induction l1 as [|c l1 IH]; intros s; [reflexivity|]. cbn [visit_ch app].
    destruct (visit_tree new_node set_loc E C c s); [apply IH|reflexivity].
  Qed.
  Lemma visit_ch_leaves ts s : visit_ch (map Leaf ts) s = Ok s.
  Proof. revert s. induction ts as [|t ts IH]; intros s; [reflexivity|]. cbn. apply IH. Qed.
  Lemma take_nodes_spec (ns : list Nd) : forall acc (s : list item) (h : H),
    take_nodes (List.length ns) (map SNode (rev ns) ++ s, h) acc = Ok (ns ++ acc, (s, h)).
  Proof.
    induction ns as [|n ns IH] using rev_ind; intros acc s h; [reflexivity|].
    rewrite app_length, Nat.add_comm, rev_app_distr. cbn. rewrite IH, <- app_assoc. reflexivity.
  Qed.
End VisitCh.

Section Facts.
  Variables (E : penv) (C : pcfg).

  (** [t] builds [q], whatever the representation of nodes. *)
  Definition yields (t : ptree) (q : qnode) : Prop :=
    forall (H Nd : Type) new_node set_loc b (s : list item) (h : H),
      visit_tree (Nd := Nd) new_node set_loc E (at_loc C b) t (s, h) =
      let (h', n) := alloc new_node set_loc b q h in Ok (SNode n :: s, h').
  Definition fails (t : ptree) : Prop :=
    exists e, forall (H Nd : Type) new_node set_loc b (s : list item) (h : H),
      visit_tree (Nd := Nd) new_node set_loc E (at_loc C b) t (s, h) = Raise e.
  Definition yields_ch (l : list ptree) (qs : list qnode) : Prop :=
    forall (H Nd : Type) new_node set_loc b (s : list item) (h : H),
      visit_ch (Nd := Nd) new_node set_loc E (at_loc C b) l (s, h) =
      let (h', ns) := alloc_list new_node set_loc b qs h in Ok (map SNode (rev ns) ++ s, h').
  Definition fails_ch (l : list ptree) : Prop :=
    exists e, forall (H Nd : Type) new_node set_loc b (s : list item) (h : H),
      visit_ch (Nd := Nd) new_node set_loc E (at_loc C b) l (s, h) = Raise e.

  Lemma yields_ch_nil : yields_ch [] [].
  Proof. intros H Nd nn sl b s h. reflexivity. Qed.
  Lemma yields_ch_leaf k l qs : yields_ch l qs -> yields_ch (Leaf k :: l) qs.
  Proof. intros Hl H Nd nn sl b s h. cbn [visit_ch visit_tree rbind]. apply Hl. Qed.
  Lemma yields_ch_cons t l q qs : yields t q -> yields_ch l qs -> yields_ch (t :: l) (q :: qs).
  Proof.
    intros Ht Hl H Nd nn sl b s h. cbn [visit_ch alloc_list]. rewrite Ht.
    destruct (alloc nn sl b q h) as [h1 n]. cbn [rbind]. rewrite Hl.
    destruct (alloc_list nn sl b qs h1) as [h2 ns]. cbn [rev]. rewrite map_app, <- app_assoc. reflexivity.
  Qed.
  Lemma fails_ch_leaf k l : fails_ch l -> fails_ch (Leaf k :: l).
  Proof. intros (e & He). exists e. intros H Nd nn sl b s h. cbn [visit_ch visit_tree rbind]. apply He. Qed.
  Lemma fails_ch_here t l : fails t -> fails_ch (t :: l).
  Proof. intros (e & He). exists e. intros H Nd nn sl b s h. cbn [visit_ch]. rewrite He. reflexivity. Qed.
  Lemma fails_ch_later t q l : yields t q -> fails_ch l -> fails_ch (t :: l).
  Proof.
    intros Ht (e & He). exists e. intros H Nd nn sl b s h. cbn [visit_ch]. rewrite Ht.
    destruct (alloc nn sl b q h) as [h1 n]. cbn [rbind]. apply He.
  Qed.

  (** The outcome of visiting a tree for a construct [P]. *)
  Definition sem (P : list token -> qnode -> Prop) (t : ptree) : Prop :=
    good_end (leaves t) /\
    ((exists q, P (leaves t) q /\ conds E (leaves t) /\ yields t q) \/ (~ conds E (leaves t) /\ fails t)).
  Lemma sem_impl (P Q : list token -> qnode -> Prop) t : (forall ts q, P ts q -> Q ts q) -> sem P t -> sem Q t.
  Proof. intros H [Hg [(q & Hq & Hr)|Hr]]; (split; [exact Hg|]); [left; exists q; split; auto|right; exact Hr]. Qed.

  (** The location that [fromContext] computes. *)
  Lemma last_hd_rev {A} (l : list A) d : l <> [] -> hd_error (rev l) = Some (last l d).
  Proof.
    intros H. destruct (exists_last H) as (l' & x & ->). rewrite rev_app_distr, last_last. reflexivity.
  Qed.
  Lemma fromContext_span t : Forall (fun k => t_type k <> EOF) (leaves t) -> fromContext t = span (leaves t).
  Proof.
    intros H. unfold fromContext, ctx_start, ctx_stop, span.
    assert (Hf : filter (fun k => negb (ttype_eqb (t_type k) EOF)) (leaves t) = leaves t).
    { induction H as [|k l Hk _ IH]; [reflexivity|]. cbn [filter]. unfold ttype_eqb at 1.
      destruct (ttype_eq_dec (t_type k) EOF); [contradiction|]. cbn [negb]. rewrite IH. reflexivity. }
    rewrite Hf. destruct (leaves t) as [|a l]; [reflexivity|]. cbn [hd_error].
    rewrite (last_hd_rev (a :: l) a) by discriminate. reflexivity.
  Qed.

  Lemma build_alloc H Nd nn sl b t p (cs : list Nd) s (h : H) :
    build nn sl (at_loc C b) t p cs (s, h) =
    let (h', n) := alloc1 nn sl b p (fromContext t) (h, cs) in (SNode n :: s, h').
  Proof.
    unfold build, alloc1. cbn [snd fst enableSourceLocations at_loc]. destruct (nn p cs h) as [h1 n].
    destruct b; [destruct (sl n (fromContext t) h1)|]; reflexivity.
  Qed.

  (** *** The unary and the list-building visits *)
  Lemma unary_yields r ch p q l :
    (forall H Nd nn sl b (s : st (H := H) (Nd := Nd)), visit_tree nn sl E (at_loc C b) (Node r ch) s =
       visit_unary nn sl (at_loc C b) p (Node r ch) (visit_ch nn sl E (at_loc C b) ch) s) ->
    fromContext (Node r ch) = l -> yields_ch ch [q] -> yields (Node r ch) (QN p l [q]).
  Proof.
    intros Hv Hl Hq H Nd nn sl b s h. rewrite Hv, alloc_eq. unfold visit_unary. rewrite Hq.
    cbn [alloc_list]. destruct (alloc nn sl b q h) as [h1 n]. cbn [rev app map rbind pop_node pop fst snd].
    rewrite build_alloc, Hl. destruct (alloc1 nn sl b p l (h1, [n])). reflexivity.
  Qed.
  Lemma unary_fails r ch p :
    (forall H Nd nn sl b (s : st (H := H) (Nd := Nd)), visit_tree nn sl E (at_loc C b) (Node r ch) s =
       visit_unary nn sl (at_loc C b) p (Node r ch) (visit_ch nn sl E (at_loc C b) ch) s) ->
    fails_ch ch -> fails (Node r ch).
  Proof.
    intros Hv (e & He). exists e. intros H Nd nn sl b s h. rewrite Hv. unfold visit_unary. rewrite He. reflexivity.
  Qed.
  Lemma list_yields r ch nm p qs l :
    (forall H Nd nn sl b (s : st (H := H) (Nd := Nd)), visit_tree nn sl E (at_loc C b) (Node r ch) s =
       visit_list nn sl (at_loc C b) nm p (Node r ch) (visit_ch nn sl E (at_loc C b) ch) s) ->
    fromContext (Node r ch) = l -> qs <> [] -> yields_ch ch qs -> yields (Node r ch) (QN p l qs).
  Proof.
    intros Hv Hl Hne Hq H Nd nn sl b s h. rewrite Hv, alloc_eq. unfold visit_list. rewrite Hq.
    pose proof (alloc_list_length nn sl b qs h) as Hlen.
    destruct (alloc_list nn sl b qs h) as [h1 ns]. cbn [snd fst rbind] in *.
    rewrite app_length, map_length, rev_length.
    destruct (Nat.ltb_spec (List.length s) (List.length ns + List.length s)) as [_|Hc].
    - replace (List.length ns + List.length s - List.length s)%nat with (List.length ns) by lia.
      rewrite take_nodes_spec. cbn [rbind]. rewrite app_nil_r, build_alloc, Hl.
      destruct (alloc1 nn sl b p l (h1, ns)). reflexivity.
    - destruct qs; [contradiction|]. cbn in Hlen. lia.
  Qed.
  Lemma list_fails r ch nm p :
    (forall H Nd nn sl b (s : st (H := H) (Nd := Nd)), visit_tree nn sl E (at_loc C b) (Node r ch) s =
       visit_list nn sl (at_loc C b) nm p (Node r ch) (visit_ch nn sl E (at_loc C b) ch) s) ->
    fails_ch ch -> fails (Node r ch).
  Proof.
    intros Hv (e & He). exists e. intros H Nd nn sl b s h. rewrite Hv. unfold visit_list. rewrite He. reflexivity.
  Qed.
  Lemma pass_yields r ch q :
    (forall H Nd nn sl b (s : st (H := H) (Nd := Nd)), visit_tree nn sl E (at_loc C b) (Node r ch) s =
       visit_ch nn sl E (at_loc C b) ch s) ->
    yields_ch ch [q] -> yields (Node r ch) q.
  Proof.
    intros Hv Hq H Nd nn sl b s h. rewrite Hv, Hq. cbn [alloc_list]. destruct (alloc nn sl b q h). reflexivity.
  Qed.
  Lemma pass_fails r ch :
    (forall H Nd nn sl b (s : st (H := H) (Nd := Nd)), visit_tree nn sl E (at_loc C b) (Node r ch) s =
       visit_ch nn sl E (at_loc C b) ch s) ->
    fails_ch ch -> fails (Node r ch).
  Proof. intros Hv (e & He). exists e. intros H Nd nn sl b s h. rewrite Hv. apply He. Qed.
End Facts.

(** ** No end of input inside a query *)
Fixpoint no_eof (e : ebnf) : bool :=
  match e with
  | Tk l => negb (tt_in EOF l)
  | NT r => negb (rule_eqb r query)
  | Sq a b | Al a b => no_eof a && no_eof b
  | Op a | Pl a | St a => no_eof a
  end.
Lemma body_no_eof r : r <> query -> no_eof (body r) = true.
Proof.
  intros H. assert (Hb : forallb (fun r => rule_eqb r query || no_eof (body r)) all_rules = true) by (vm_compute; reflexivity).
  rewrite forallb_forall in Hb. specialize (Hb r (all_rules_all r)). unfold rule_eqb in Hb.
  destruct (rule_eq_dec r query); [contradiction|]. exact Hb.
Qed.
Lemma derives_no_eof e x : derives e x -> no_eof e = true -> Forall (fun k => t_type k <> EOF) (flat_map leaves x).
Proof.
  induction 1 as [l t Hin|r ch _ IH|a b x y _ IH1 _ IH2|a b x _ IH|a b x _ IH|e|e x _ IH|e x y _ IH1 _ IH2|e|e x y _ IH1 _ IH2];
    cbn [no_eof]; intros He.
  - cbn. constructor; [|constructor]. intros Hk. apply negb_true_iff in He. rewrite Hk in Hin.
    apply tt_in_spec in Hin. congruence.
  - cbn. rewrite app_nil_r. apply IH. apply body_no_eof. intros ->. discriminate.
  - apply andb_true_iff in He. destruct He. rewrite flat_map_app. apply Forall_app. auto.
  - apply andb_true_iff in He. destruct He. auto.
  - apply andb_true_iff in He. destruct He. auto.
  - constructor.
  - auto.
  - rewrite flat_map_app. apply Forall_app. auto.
  - constructor.
  - rewrite flat_map_app. apply Forall_app. auto.
Qed.
Lemma rule_no_eof r ch : r <> query -> derives (body r) ch -> Forall (fun k => t_type k <> EOF) (leaves (Node r ch)).
Proof. intros Hr Hd. cbn [leaves]. eapply derives_no_eof; [exact Hd|]. apply body_no_eof. exact Hr. Qed.
Lemma rule_span r ch : r <> query -> derives (body r) ch -> fromContext (Node r ch) = span (leaves (Node r ch)).
Proof. intros Hr Hd. apply fromContext_span. eapply rule_no_eof; eauto. Qed.

(** ** Token texts *)
Definition solid (w : pystr) : Prop := w <> [] /\ isspace w = false.
Definition tok_ok (t : token) : Prop :=
  (t_type t <> EOF -> text_ok (t_type t) (t_text t)) /\ (name_tok t -> solid (t_text t)).

Lemma solid_cons c w : is_space_char c = false -> solid (c :: w).
Proof. intros H. split; [discriminate|]. cbn [isspace forallb]. rewrite H. reflexivity. Qed.
Lemma name_solid t : first_rule (t_text t) (t_type t) -> name_tok t -> solid (t_text t).
Proof.
  intros Hf Hn. pose proof (first_rule_text _ _ Hf) as Ht. unfold name_tok in Hn. cbn [In] in Hn.
  destruct Hn as [Hn|[Hn|[Hn|[Hn|[]]]]]; rewrite <- Hn in *; cbn [text_ok] in Ht.
  - assert (H : lang (Cat (set id_first) (opt (Cat (Rep (set id_char)) (set id_last)))) (t_text t)).
    { eapply first_rule_unique_rule; [exact Hf|cbn; tauto]. }
    apply lang_cat in H. destruct H as (x & y & Heq & Hx & _). apply lang_set in Hx. destruct Hx as (c & -> & Hc).
    rewrite Heq. apply solid_cons. revert Hc. unfold in_ranges, is_space_char. cbn [existsb id_first fst snd].
    intros Hc. lia.
  - rewrite Ht. split; [discriminate|reflexivity].
  - assert (H : forall w, In w scope_words -> solid w).
    { intros w Hw. assert (Hb : forallb (fun w => match w with [] => false | _ => negb (isspace w) end) scope_words = true) by (vm_compute; reflexivity).
      rewrite forallb_forall in Hb. specialize (Hb w Hw). destruct w; [discriminate|]. split; [discriminate|].
      apply negb_true_iff in Hb. exact Hb. }
    apply H. exact Ht.
  - destruct Ht as [Hne Hw]. destruct (t_text t) as [|c w]; [contradiction|]. inversion Hw; subst. apply solid_cons.
    unfold is_flag_char in *. cbn in *.
    repeat match goal with H : _ \/ _ |- _ => destruct H as [<-|H] end; try contradiction; reflexivity.
Qed.
Lemma tokens_ok q : Forall tok_ok (tokens q).
Proof.
  unfold tokens. apply Forall_app. split.
  - apply Forall_forall. intros t Ht. destruct (token_text_ok q t Ht) as [H _]. split; [auto|].
    destruct (token_at q t Ht) as (b & a & _ & _ & _ & _ & _ & _ & _ & _ & Hf & _). apply name_solid. exact Hf.
  - constructor; [|constructor]. split; [intros H; exfalso; apply H; reflexivity|].
    unfold name_tok. cbn. intuition discriminate.
Qed.
