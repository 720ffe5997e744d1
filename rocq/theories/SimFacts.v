(** Token positions influence source locations only. *)
From Coq Require Import String.
From Verif Require Import Base Regex LexRules Lexer Grammar Antlr Ast Builder Parser LexSpec LitSpec LexThms LexWs
  GramSpec GramFacts ValueSpec ValueFacts SpellSpec BuilderFacts BuilderRules ParseSpec ParseFacts EvFacts TreeSpec TreeFacts.
Local Open Scope Z_scope.

Definition strip (k : token) : token := mkTok (t_type k) (t_text k) 0 0 0 0.
Fixpoint strip_tree (t : ptree) : ptree :=
  match t with Leaf k => Leaf (strip k) | Node r ch => Node r (map strip_tree ch) end.

Lemma strip_types ts : map t_type (map strip ts) = map t_type ts.
Proof. rewrite map_map. reflexivity. Qed.
Lemma strip_sig ts ts' : map sig ts = map sig ts' -> map strip ts = map strip ts'.
Proof.
  revert ts'. induction ts as [|k ts IH]; intros [|k' ts'] H; try discriminate; [reflexivity|].
  cbn in *. injection H as H1 H2 H3. unfold strip at 1 3. rewrite H1, H2. f_equal. auto.
Qed.
Lemma parse_e_strip : forall f e K ts,
  parse_e f e K (map strip ts) = option_map (fun p => (map strip_tree (fst p), map strip (snd p))) (parse_e f e K ts).
Proof.
  induction f as [|f IH]; intros e K ts; [reflexivity|].
  destruct e as [l|r|a b|a b|e|e|e]; cbn [parse_e]; rewrite ?strip_types.
  - destruct ts as [|t ts]; [reflexivity|]. cbn [map]. change (t_type (strip t)) with (t_type t). destruct (tt_in (t_type t) l); reflexivity.
  - rewrite IH. destruct (parse_e f (body r) K ts) as [[ch rest]|]; reflexivity.
  - rewrite IH. destruct (parse_e f a (b :: K) ts) as [[ch rest]|]; [|reflexivity]. cbn [option_map fst snd]. rewrite IH.
    destruct (parse_e f b K rest) as [[ch2 rest2]|]; [|reflexivity]. cbn [option_map fst snd]. rewrite map_app. reflexivity.
  - destruct (viableb (S f) (a :: K) (map t_type ts)); apply IH.
  - destruct (viableb (S f) (e :: K) (map t_type ts)); [apply IH|reflexivity].
  - apply IH.
  - destruct (viableb (S f) (e :: St e :: K) (map t_type ts)); [apply IH|reflexivity].
Qed.
Lemma antlr_query_strip ts : antlr_query (map strip ts) = option_map strip_tree (antlr_query ts).
Proof.
  unfold antlr_query, in_grammar. rewrite strip_types, map_length. destruct (viableb _ _ _); [|reflexivity].
  rewrite parse_e_strip. destruct (parse_e _ _ _ _) as [[[|t [|? ?]] [|? ?]]|]; reflexivity.
Qed.
Lemma conforms_strip ts : conforms (map strip ts) <-> conforms ts.
Proof. rewrite <- !in_grammar_conforms. unfold in_grammar. rewrite strip_types, map_length. tauto. Qed.

Fixpoint ptree_ind' (P : ptree -> Prop) (HL : forall k, P (Leaf k))
  (HN : forall r ch, Forall P ch -> P (Node r ch)) (t : ptree) {struct t} : P t :=
  match t with
  | Leaf k => HL k
  | Node r ch => HN r ch
      ((fix go (l : list ptree) : Forall P l :=
          match l with [] => Forall_nil P | c :: l' => Forall_cons c (ptree_ind' P HL HN c) (go l') end) ch)
  end.

Lemma leaves_strip t : leaves (strip_tree t) = map strip (leaves t).
Proof.
  induction t as [k|r ch IH] using ptree_ind'; [reflexivity|]. cbn [strip_tree leaves].
  induction IH as [|c ch Hc _ IH']; [reflexivity|]. cbn [map flat_map]. rewrite Hc, map_app, IH'. reflexivity.
Qed.
Lemma get_text_strip t : get_text (strip_tree t) = get_text t.
Proof. unfold get_text. rewrite leaves_strip. induction (leaves t) as [|k l IH]; [reflexivity|]. cbn. rewrite IH. reflexivity. Qed.
Lemma find_rule_strip r ch : find_rule r (map strip_tree ch) = option_map strip_tree (find_rule r ch).
Proof.
  unfold find_rule. induction ch as [|[k|r' c] ch IH]; [reflexivity|exact IH|]. cbn [map find strip_tree].
  destruct (rule_eqb r' r); [reflexivity|exact IH].
Qed.
Lemma find_token_strip r ch : find_token r (map strip_tree ch) = option_map strip_tree (find_token r ch).
Proof.
  unfold find_token. induction ch as [|[k|r' c] ch IH]; [reflexivity| |exact IH]. cbn [map find strip_tree].
  change (t_type (strip k)) with (t_type k). destruct (ttype_eqb (t_type k) r); [reflexivity|exact IH].
Qed.
Lemma has_token_strip r ch : has_token r (map strip_tree ch) = has_token r ch.
Proof. unfold has_token. rewrite find_token_strip. destruct (find_token r ch); reflexivity. Qed.
Lemma child_index_strip ch : forall i ty, child_index_from (map strip_tree ch) i ty = child_index_from ch i ty.
Proof.
  induction ch as [|[k|r c] ch IH]; intros i ty; [reflexivity| |apply IH]. cbn [map strip_tree child_index_from].
  change (t_type (strip k)) with (t_type k). rewrite IH. reflexivity.
Qed.
Lemma getChildIndex_strip ch i ty : getChildIndex (map strip_tree ch) i ty = getChildIndex ch i ty.
Proof. unfold getChildIndex. rewrite map_length, skipn_map, child_index_strip. reflexivity. Qed.
Lemma child_text_strip ch i : child_text (map strip_tree ch) i = child_text ch i.
Proof.
  unfold child_text, get_child_ctx. rewrite map_length, !nth_error_map.
  destruct (i <? 0); destruct (nth_error ch _); cbn [option_map]; rewrite ?get_text_strip; reflexivity.
Qed.
Lemma repetition_strip E ch : repetition E (map strip_tree ch) = repetition E ch.
Proof.
  unfold repetition. rewrite find_rule_strip. destruct (find_rule quantifier ch) as [[k|r qch]|]; [reflexivity| |reflexivity].
  cbn [option_map strip_tree]. unfold processRepetition. rewrite !has_token_strip. unfold processRepetitionRange.
  rewrite !getChildIndex_strip, !child_text_strip. reflexivity.
Qed.

Section Ev.
  Variables (E : penv) (C : pcfg).
  Lemma ev_regexp_strip ch : ev_regexp E C (map strip_tree ch) = ev_regexp E C ch.
  Proof.
    unfold ev_regexp. rewrite find_rule_strip. destruct (find_rule regexp ch) as [[k|r cr]|]; [reflexivity| |reflexivity].
    cbn [option_map strip_tree]. rewrite !find_rule_strip. destruct (find_rule regexp_pattern cr); [|reflexivity]. cbn [option_map].
    rewrite get_text_strip. destruct (find_rule regexp_flag cr); cbn [option_map]; rewrite ?get_text_strip; reflexivity.
  Qed.
  Lemma ev_attribute_strip ch : ev_attribute (map strip_tree ch) = ev_attribute ch.
  Proof.
    unfold ev_attribute. rewrite find_rule_strip. destruct (find_rule attribute ch) as [[k|r cr]|]; [reflexivity| |reflexivity].
    cbn [option_map strip_tree]. rewrite !find_rule_strip. destruct (find_rule identifier cr); [|reflexivity]. cbn [option_map].
    rewrite get_text_strip. destruct (find_rule qualifier cr); cbn [option_map]; rewrite ?get_text_strip; reflexivity.
  Qed.
  Lemma ev_node_strip r t t' ch qs qs' : option_map (map erase) qs = option_map (map erase) qs' ->
    option_map erase (ev_node E C r t (map strip_tree ch) qs) = option_map erase (ev_node E C r t' ch qs').
  Proof.
    intros H. destruct r; cbn [ev_node]; rewrite ?find_rule_strip, ?repetition_strip, ?ev_regexp_strip, ?ev_attribute_strip, ?has_token_strip, ?map_length.
    all: try reflexivity.
    all: try (destruct (ev_attribute ch) as [[q i]|]; [|reflexivity]; destruct (ev_regexp E C ch) as [[v fl]|]; reflexivity).
    all: try (destruct (ev_regexp E C ch) as [[v fl]|]; reflexivity).
    all: try (destruct ch as [|c ch]; [reflexivity|]; cbn [map]; rewrite get_text_strip; destruct (within_scope (get_text c)); reflexivity).
    all: try (destruct qs as [[|a [|b [|c l]]]|], qs' as [[|a' [|b' [|c' l']]]|]; cbn [option_map map] in H; try discriminate H;
      try (injection H as H1 H2 H3); try (injection H as H1 H2); try (injection H as H1); cbn [option_map map erase];
      first [reflexivity|idtac]).
    all: try (destruct (find_rule within_part ch); cbn [option_map erase map]; congruence).
    all: try (destruct (repetition E ch) as [[mn mx]|]; cbn [option_map erase map]; congruence).
    all: try (destruct (List.length ch =? 2)%nat; cbn [option_map erase map]; congruence).
    all: try (cbn [option_map erase map]; congruence).
  Qed.
  Lemma ev_strip t : option_map erase (ev E C (strip_tree t)) = option_map erase (ev E C t).
  Proof.
    induction t as [k|r ch IH] using ptree_ind'; [reflexivity|]. cbn [strip_tree]. rewrite !ev_eq. apply ev_node_strip.
    induction IH as [|c ch Hc _ IH']; [reflexivity|]. destruct c as [k|r' cc]; cbn [map evs strip_tree]; [exact IH'|].
    destruct (valueless r'); [exact IH'|]. cbn [strip_tree] in Hc.
    destruct (ev E C (Node r' (map strip_tree cc))), (ev E C (Node r' cc)); cbn [option_map] in Hc; try discriminate Hc; [|reflexivity].
    injection Hc as Hc. destruct (evs E C (map strip_tree ch)), (evs E C ch); cbn [option_map] in IH'; try discriminate IH'; [|reflexivity].
    injection IH' as IH'. cbn [option_map map]. congruence.
  Qed.
  Lemma conds_strip ts : conds E (map strip ts) <-> conds E ts.
  Proof.
    induction ts as [|k ts IH]; [reflexivity|]. cbn [map conds]. rewrite IH. enough (cond1 E (strip k) (map strip ts) <-> cond1 E k ts) by tauto.
    unfold cond1. change (t_type (strip k)) with (t_type k). change (t_text (strip k)) with (t_text k). clear.
    destruct ts as [|a [|b ts]]; cbn [map].
    - split; intros (A & B & D & F); (split; [exact A|split; [|split; [exact D|]]]); intros; discriminate.
    - split; intros (A & B & D & F); (split; [exact A|split; [|split; [exact D|]]]); try (intros; discriminate).
      + intros Hk f r' Hr Hf. injection Hr as <- <-. apply (B Hk (strip a) [] eq_refl Hf).
      + intros Hk f r' Hr Hf. injection Hr as <- <-. apply (B Hk a [] eq_refl Hf).
    - split; intros (A & B & D & F); (split; [exact A|split; [|split; [exact D|]]]).
      + intros Hk f r' Hr Hf. injection Hr as <- <-. apply (B Hk (strip a) _ eq_refl Hf).
      + intros Hk c d r' Hr Hc Hd. injection Hr as <- <- <-. apply (F Hk (strip a) (strip b) _ eq_refl Hc Hd).
      + intros Hk f r' Hr Hf. injection Hr as <- <-. apply (B Hk a _ eq_refl Hf).
      + intros Hk c d r' Hr Hc Hd. injection Hr as <- <- <-. apply (F Hk a b _ eq_refl Hc Hd).
  Qed.
End Ev.

(** Queries with the same tokens up to positions. *)
Lemma same_tokens_accepted V q q' : same_tokens q q' -> accepted V q <-> accepted V q'.
Proof.
  intros [Hs He]. apply strip_sig in Hs. unfold accepted, well_formed. rewrite He.
  rewrite <- (conforms_strip (tokens q)), <- (conforms_strip (tokens q')), Hs.
  rewrite !texts_ok_conds, <- (conds_strip _ (tokens q)), <- (conds_strip _ (tokens q')), Hs. tauto.
Qed.
Lemma erase_erase n : erase (erase n) = erase n.
Proof.
  induction n as [p l ch IH] using qnode_ind'. cbn [erase]. f_equal. rewrite map_map. apply map_ext_in. intros c Hc.
  rewrite Forall_forall in IH. apply IH. exact Hc.
Qed.
Lemma erase_with_locs b n : erase (with_locs b n) = erase n.
Proof. destruct b; [reflexivity|apply erase_erase]. Qed.
Lemma same_tokens_parse V P P' q q' n : env_ok V -> same_tokens q q' ->
  default_identifier (qp_cfg P) = default_identifier (qp_cfg P') -> default_operator (qp_cfg P) = default_operator (qp_cfg P') ->
  unicode_normalization_form (qp_cfg P) = unicode_normalization_form (qp_cfg P') ->
  parse V P q = Ok n -> exists n', parse V P' q' = Ok n' /\ erase n' = erase n.
Proof.
  intros HV Hs H1 H2 H3 Hp. assert (Ha : accepted V q) by (destruct (parse_ok_inv V P q n HV Hp) as (? & Ha & _); exact Ha).
  apply (same_tokens_accepted V q q' Hs) in Ha. destruct (parse_outcome V P' q' HV) as [(m & _ & _ & _ & Hm)|(Hn & _)]; [|contradiction].
  eexists. split; [exact Hm|]. rewrite erase_with_locs.
  destruct (parse_ev V P q n HV Hp) as (t & k & Ht & _ & _ & Hk & _ & ->).
  destruct (parse_ev V P' q' _ HV Hm) as (t' & k' & Ht' & _ & _ & Hk' & _ & Heq).
  rewrite erase_with_locs. apply (f_equal erase) in Heq. rewrite !erase_with_locs in Heq. rewrite Heq.
  destruct Hs as [Hs _]. apply strip_sig in Hs. pose proof (antlr_query_strip (tokens q)) as A. rewrite Hs, antlr_query_strip, Ht, Ht' in A.
  injection A as A. pose proof (ev_strip (e_penv V) (qp_cfg P) t) as B. rewrite <- A, ev_strip, Hk in B.
  assert (HC : forall x, option_map erase (ev (e_penv V) (qp_cfg P) x) = option_map erase (ev (e_penv V) (qp_cfg P') x)).
  { intros x. f_equal. clear - H1 H2 H3. destruct (qp_cfg P) as [a b c d], (qp_cfg P') as [a' b' c' d']. cbn in *. subst.
    induction x as [k|r ch IH] using ptree_ind'; [reflexivity|]. rewrite !ev_eq.
    assert (Hl : evs (e_penv V) (mkCfg a' b' c' d) ch = evs (e_penv V) (mkCfg a' b' c' d') ch).
    { induction IH as [|x l Hx _ IH']; [reflexivity|]. destruct x as [k|r' cc]; cbn [evs]; rewrite IH'; [reflexivity|].
      destruct (valueless r'); [reflexivity|]. rewrite Hx. reflexivity. }
    rewrite Hl. reflexivity. }
  rewrite HC, Hk' in B. injection B as B. exact B.
Qed.
