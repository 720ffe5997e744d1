(** Token sequences that say the same give the same trees. *)
From Coq Require Import String.
From Verif Require Import Base Regex LexRules Lexer Grammar Antlr Ast Builder Parser LexSpec LitSpec LexThms
  GramSpec GramFacts ValueSpec ValueFacts SpellSpec BuilderFacts BuilderRules ParseSpec ParseFacts EvFacts TreeSpec TreeFacts SimFacts ReadFacts ReadQuery MeanSpec.
Local Open Scope Z_scope.

(** The kinds of the tokens alone decide the derivation. *)
Definition blank (k : token) : token := mkTok (t_type k) [] 0 0 0 0.
Fixpoint shape (t : ptree) : ptree :=
  match t with Leaf k => Leaf (blank k) | Node r ch => Node r (map shape ch) end.
Lemma blank_types ts : map t_type (map blank ts) = map t_type ts.
Proof. rewrite map_map. reflexivity. Qed.
Lemma types_blank ts ts' : map t_type ts = map t_type ts' -> map blank ts = map blank ts'.
Proof.
  revert ts'. induction ts as [|k ts IH]; intros [|k' ts'] H; try discriminate; [reflexivity|].
  cbn in *. injection H as H1 H2. unfold blank at 1 3. rewrite H1. f_equal. auto.
Qed.
Lemma parse_e_shape : forall f e K ts,
  parse_e f e K (map blank ts) = option_map (fun p => (map shape (fst p), map blank (snd p))) (parse_e f e K ts).
Proof.
  induction f as [|f IH]; intros e K ts; [reflexivity|].
  destruct e as [l|r|a b|a b|e|e|e]; cbn [parse_e]; rewrite ?blank_types.
  - destruct ts as [|t ts]; [reflexivity|]. cbn [map]. change (t_type (blank t)) with (t_type t). destruct (tt_in (t_type t) l); reflexivity.
  - rewrite IH. destruct (parse_e f (body r) K ts) as [[ch rest]|]; reflexivity.
  - rewrite IH. destruct (parse_e f a (b :: K) ts) as [[ch rest]|]; [|reflexivity]. cbn [option_map fst snd]. rewrite IH.
    destruct (parse_e f b K rest) as [[ch2 rest2]|]; [|reflexivity]. cbn [option_map fst snd]. rewrite map_app. reflexivity.
  - destruct (viableb (S f) (a :: K) (map t_type ts)); apply IH.
  - destruct (viableb (S f) (e :: K) (map t_type ts)); [apply IH|reflexivity].
  - apply IH.
  - destruct (viableb (S f) (e :: St e :: K) (map t_type ts)); [apply IH|reflexivity].
Qed.
Lemma antlr_query_shape ts : antlr_query (map blank ts) = option_map shape (antlr_query ts).
Proof.
  unfold antlr_query, in_grammar. rewrite blank_types, map_length. destruct (viableb _ _ _); [|reflexivity].
  rewrite parse_e_shape. destruct (parse_e _ _ _ _) as [[[|t [|? ?]] [|? ?]]|]; reflexivity.
Qed.
Lemma conforms_types ts ts' : map t_type ts = map t_type ts' -> conforms ts -> conforms ts'.
Proof. intros H. rewrite <- !in_grammar_conforms. unfold in_grammar. rewrite <- (map_length t_type ts), <- (map_length t_type ts'), H. auto. Qed.

Lemma shape_leaf k c : shape (Leaf k) = shape c -> exists k', c = Leaf k' /\ t_type k = t_type k'.
Proof. destruct c as [k'|r ch]; [|discriminate]. intros H. injection H as H. eauto. Qed.
Lemma shape_node r ch c : shape (Node r ch) = shape c -> exists ch', c = Node r ch' /\ map shape ch = map shape ch'.
Proof. destruct c as [k'|r' ch']; [discriminate|]. intros H. injection H as -> H. eauto. Qed.
Lemma shape_cons c l l' : map shape (c :: l) = map shape l' -> exists c' r', l' = c' :: r' /\ shape c = shape c' /\ map shape l = map shape r'.
Proof. destruct l' as [|c' r']; [discriminate|]. intros H. injection H as H1 H2. eauto. Qed.
Lemma shape_nil l' : map shape [] = map shape l' -> l' = [].
Proof. destruct l'; [reflexivity|discriminate]. Qed.
Lemma shape_len c c' : shape c = shape c' -> List.length (leaves c) = List.length (leaves c').
Proof.
  revert c'. induction c as [k|r ch IH] using ptree_ind'; intros c' H.
  - apply shape_leaf in H. destruct H as (k' & -> & _). reflexivity.
  - apply shape_node in H. destruct H as (ch' & -> & H). cbn [leaves]. revert ch' H. induction IH as [|c ch Hc _ IH']; intros ch' H.
    + apply shape_nil in H. subst. reflexivity.
    + apply shape_cons in H. destruct H as (c' & r' & -> & H1 & H2). cbn [flat_map]. rewrite !app_length, (Hc c' H1), (IH' r' H2). reflexivity.
Qed.
Lemma find_rule_shape r ch ch' : map shape ch = map shape ch' ->
  match find_rule r ch, find_rule r ch' with Some c, Some c' => shape c = shape c' | None, None => True | _, _ => False end.
Proof.
  revert ch'. induction ch as [|c ch IH]; intros ch' H.
  - apply shape_nil in H. subst. exact I.
  - apply shape_cons in H. destruct H as (c' & r' & -> & H1 & H2). unfold find_rule in *. cbn [find]. destruct c as [k|x cc].
    + apply shape_leaf in H1. destruct H1 as (k' & -> & _). apply IH. exact H2.
    + pose proof H1 as H0. apply shape_node in H1. destruct H1 as (cc' & -> & _). destruct (rule_eqb x r); [exact H0|apply IH; exact H2].
Qed.
Lemma has_token_shape ty ch ch' : map shape ch = map shape ch' -> has_token ty ch = has_token ty ch'.
Proof.
  revert ch'. induction ch as [|c ch IH]; intros ch' H.
  - apply shape_nil in H. subst. reflexivity.
  - apply shape_cons in H. destruct H as (c' & r' & -> & H1 & H2). specialize (IH r' H2). unfold has_token, find_token in *. cbn [find]. destruct c as [k|x cc].
    + apply shape_leaf in H1. destruct H1 as (k' & -> & Ht). rewrite Ht. destruct (ttype_eqb (t_type k') ty); [reflexivity|exact IH].
    + apply shape_node in H1. destruct H1 as (cc' & -> & _). exact IH.
Qed.


Lemma app_same_len {A} (x x' y y' : list A) : List.length x = List.length x' -> x ++ y = x' ++ y' -> x = x' /\ y = y'.
Proof.
  revert x'. induction x as [|a x IH]; intros [|a' x'] Hl H; try discriminate; [auto|]. cbn in *. injection H as -> H. destruct (IH x' ltac:(lia) H) as [-> ->]. auto.
Qed.

(** [says_same] with any relation between the literals. *)
Definition says_if (R : pystr -> pystr -> Prop) (E : penv) (l l' : list token) : Prop :=
  map t_type l = map t_type l' /\
  forall i a a', nth_error l i = Some a -> nth_error l' i = Some a' ->
    (t_type a = REGEXP -> R (t_text a) (t_text a')) /\
    (t_type a = INTEGER -> dec_value (t_text a) = dec_value (t_text a') /\ int_ok E (t_text a')) /\
    forall b b', nth_error l (S i) = Some b -> nth_error l' (S i) = Some b' ->
      (In (t_type b) [COLON; OPERATOR_EQ; OPERATOR_NE] -> t_type a <> REGEXP -> t_text a = t_text a') /\
      (t_type a = FWD_SLASH -> t_type b = REGEXP_FLAGS -> exists S, flags_denote (t_text b) S /\ flags_denote (t_text b') S) /\
      (t_type a = WITHIN -> t_type b = SIMPLE_WITHIN_SCOPE -> exists sc, scope_word (t_text b) sc /\ scope_word (t_text b') sc).

Lemma value_like E C w w' v : literal_means w v -> literal_means w' v -> regexp_value E C w = regexp_value E C w'.
  Proof.
    assert (L : forall w v, literal_means w v -> regexp_value E C w = Ok (normalised E C v)).
    { intros x y Hx. destruct (regexp_value_spec E C x) as [(z & Hz & ->)|[Hn _]]; [|rewrite (literal_means_det _ _ _ Hx Hz); reflexivity|exfalso; apply Hn; exists y; exact Hx].
      destruct Hx as (q & es & A & B & D & _). exists q, es. auto. }
    intros H H'. rewrite (L _ _ H), (L _ _ H'). reflexivity.
  Qed.
Section Same.
  Variables (E : penv) (C : pcfg) (R : pystr -> pystr -> Prop).
  Hypothesis HR : forall w w', R w w' -> decodable w' /\ regexp_value E C w = regexp_value E C w'.
  Lemma same_split x x' y y' : List.length x = List.length x' -> says_if R E (x ++ y) (x' ++ y') -> says_if R E x x' /\ says_if R E y y'.
  Proof.
    intros Hl [Ht H]. rewrite !map_app in Ht. apply app_same_len in Ht; [|rewrite !map_length; exact Hl]. destruct Ht as [Ht1 Ht2]. split; (split; [assumption|]).
    - intros i a a' Ha Ha'. assert (L : forall j (b : token), nth_error x j = Some b -> nth_error (x ++ y) j = Some b) by (intros j b Hb; rewrite nth_error_app1; [exact Hb|apply nth_error_Some; congruence]).
      assert (L' : forall j (b : token), nth_error x' j = Some b -> nth_error (x' ++ y') j = Some b) by (intros j b Hb; rewrite nth_error_app1; [exact Hb|apply nth_error_Some; congruence]).
      destruct (H i a a' (L _ _ Ha) (L' _ _ Ha')) as (A & B & D). split; [exact A|]. split; [exact B|]. intros b b' Hb Hb'. apply D; auto.
    - intros i a a' Ha Ha'. assert (L : forall j, nth_error (x ++ y) (List.length x + j) = nth_error y j) by (intros j; rewrite nth_error_app2 by lia; f_equal; lia).
      assert (L' : forall j, nth_error (x' ++ y') (List.length x + j) = nth_error y' j) by (intros j; rewrite nth_error_app2 by lia; f_equal; lia).
      destruct (H (List.length x + i)%nat a a') as (A & B & D); [rewrite L; exact Ha|rewrite L'; exact Ha'|]. split; [exact A|]. split; [exact B|].
      intros b b' Hb Hb'. apply D; [rewrite <- Nat.add_succ_r, L; exact Hb|rewrite <- Nat.add_succ_r, L'; exact Hb'].
  Qed.
  Lemma same_types l l' : says_if R E l l' -> map t_type l = map t_type l'.
  Proof. intros [H _]. exact H. Qed.

  (** Everything that the derivations of the two sequences have in common. *)
  Definition lk (l l' : list token) : Prop :=
    says_if R E l l' /\ (conds E l /\ conds E l') /\ Forall tok_ok l /\ Forall tok_ok l'.
  Lemma lk_app x x' y y' : List.length x = List.length x' -> lk (x ++ y) (x' ++ y') -> lk x x' /\ lk y y'.
  Proof.
    intros Hl (H & (Hc & Hc') & Ho & Ho'). apply Forall_app in Ho. apply Forall_app in Ho'. destruct (conds_weaken_app _ _ _ Hc) as [H1 H2]. destruct (conds_weaken_app _ _ _ Hc') as [H1' H2'].
    destruct (same_split _ _ _ _ Hl H). unfold lk. tauto.
  Qed.
  Lemma lk_cons c c' l l' : shape c = shape c' -> lk (flat_map leaves (c :: l)) (flat_map leaves (c' :: l')) -> lk (leaves c) (leaves c') /\ lk (flat_map leaves l) (flat_map leaves l').
  Proof. intros Hs H. cbn [flat_map] in H. apply lk_app in H; [exact H|]. apply shape_len. exact Hs. Qed.

  (** Integers: repetitions. *)
  Lemma quant_types_eq tq tq' : map t_type tq = map t_type tq' -> quant_shape tq -> quant_shape tq'.
  Proof.
    intros Ht Hs. destruct Hs; cbn [map] in Ht;
      repeat match goal with H : _ = map t_type ?l |- _ => destruct l as [|? ?]; try discriminate H; cbn [map] in H; injection H as ? H end;
      match goal with H : [] = map t_type ?l |- _ => destruct l; [|discriminate H] end; econstructor; congruence.
  Qed.
  Lemma same_quantified tq tq' mn mx : says_if R E tq tq' -> quantified tq mn mx -> quantified tq' mn mx.
  Proof.
    intros [Ht H] Hq.
    assert (I : forall i a a' n, nth_error tq i = Some a -> nth_error tq' i = Some a' -> int_tok n a -> int_tok n a').
    { intros i a a' n Ha Ha' [Hy Hn]. destruct (H i a a' Ha Ha') as (_ & B & _). destruct (B Hy) as [B1 _]. split; [|congruence].
      pose proof (map_nth_error t_type i tq Ha) as X. rewrite Ht, (map_nth_error t_type i tq' Ha') in X. congruence. }
    clear H. unfold is_tok in *. destruct Hq; cbn [map] in Ht;
      repeat match goal with H : _ = map t_type ?l |- _ => destruct l as [|? ?]; try discriminate H; cbn [map] in H; injection H as ? H end;
      match goal with H : [] = map t_type ?l |- _ => destruct l; [|discriminate H] end;
      econstructor; unfold is_tok in *; first [congruence|eassumption|idtac].
    all: try (eapply (I 1%nat); [reflexivity|reflexivity|eassumption]).
    all: try (eapply (I 2%nat); [reflexivity|reflexivity|eassumption]).
    all: try (eapply (I 3%nat); [reflexivity|reflexivity|eassumption]).
  Qed.
  Definition qd (c : ptree) : Prop := match c with Node quantifier cc => derives (body quantifier) cc | _ => True end.
  Lemma repetition_like ch ch' e : derives e ch -> map shape ch = map shape ch' -> lk (flat_map leaves ch) (flat_map leaves ch') -> repetition E ch = repetition E ch'.
  Proof.
    intros Hd Hs Hl. assert (Hq : forall c, In c ch -> qd c).
    { clear - Hd. induction Hd as [l t Hin|r ch Hd IH|a b x y _ IH1 _ IH2|a b x _ IH|a b x _ IH|e|e x _ IH|e x y _ IH1 _ IH2|e|e x y _ IH1 _ IH2]; intros c Hc;
        try (apply in_app_or in Hc; destruct Hc as [Hc|Hc]; [exact (IH1 c Hc)|exact (IH2 c Hc)]); try exact (IH c Hc); try contradiction.
      - destruct Hc as [<-|[]]. exact I.
      - destruct Hc as [<-|[]]. destruct r; try exact I. exact Hd. }
    clear Hd. revert ch' Hs Hl Hq. induction ch as [|c ch IH]; intros ch' Hs Hl Hq.
    - apply shape_nil in Hs. subst. reflexivity.
    - apply shape_cons in Hs. destruct Hs as (c' & r' & -> & Hs1 & Hs2). destruct (lk_cons _ _ _ _ Hs1 Hl) as [L1 L2].
      assert (Hq' : forall c, In c ch -> qd c) by (intros x Hx; apply Hq; right; exact Hx).
      specialize (IH r' Hs2 L2 Hq'). specialize (Hq c (or_introl eq_refl)). unfold repetition, find_rule in *. cbn [find]. destruct c as [k|r cc].
      + apply shape_leaf in Hs1. destruct Hs1 as (k' & -> & _). exact IH.
      + apply shape_node in Hs1. destruct Hs1 as (cc' & -> & Hcc). destruct (rule_eq_dec r quantifier) as [->|Hr].
        * destruct (quantifier_shape _ Hq) as (tq & -> & Hqs). cbn [leaves] in L1.
          assert (exists tq', cc' = map Leaf tq') as (tq' & ->).
          { clear - Hcc. revert cc' Hcc. induction tq as [|k tq IH]; intros cc' H; cbn [map] in H; [apply shape_nil in H; subst; exists []; reflexivity|].
            apply shape_cons in H. destruct H as (c' & r' & -> & H1 & H2). apply shape_leaf in H1. destruct H1 as (k' & -> & _). destruct (IH r' H2) as (x & ->). exists (k' :: x). reflexivity. }
          rewrite !flat_leaf in L1. destruct L1 as (S1 & (C1 & C1') & O1 & O1').
          pose proof (quant_types_eq _ _ (same_types _ _ S1) Hqs) as Hqs'. change (rule_eqb quantifier quantifier) with true. cbv iota.
          destruct (quant_outcome E tq Hqs O1) as [(mn & mx & Hx & _ & ->)|[Hn _]]; [|contradiction].
          destruct (quant_outcome E tq' Hqs' O1') as [(mn' & mx' & Hx' & _ & ->)|[Hn _]]; [|contradiction].
          destruct (quant_fun _ _ _ _ _ (same_quantified _ _ _ _ S1 Hx) Hx') as [-> ->]. reflexivity.
        * unfold rule_eqb at 1 3. destruct (rule_eq_dec r quantifier); [contradiction|]. exact IH.
  Qed.

  (** Literals with their flags. *)

  Lemma regexp_inv cr : derives (body regexp) cr ->
    (exists k, cr = [Node regexp_pattern [Leaf k]] /\ t_type k = REGEXP) \/
    (exists k s f, cr = [Node regexp_pattern [Leaf k]; Leaf s; Node regexp_flag [Leaf f]] /\ t_type k = REGEXP /\ t_type s = FWD_SLASH /\ t_type f = REGEXP_FLAGS).
  Proof.
    intros Hd. cbn [body] in Hd. inversion Hd as [| |? ? xa x1 Ha Hb| | | | | | |]; subst; clear Hd. inversion Ha as [|? ca Hca| | | | | | | |]; subst; clear Ha.
    cbn [body] in Hca. inversion Hca as [? k Hk| | | | | | | | |]; subst; clear Hca. destruct Hk as [Hk|[]].
    inversion Hb as [| | | | | |? ? Hc| | |]; subst; clear Hb; [left; exists k; auto|].
    inversion Hc as [| |? ? xs xf Hs Hf| | | | | | |]; subst; clear Hc. inversion Hs as [? s Hs1| | | | | | | | |]; subst; clear Hs. destruct Hs1 as [Hs1|[]].
    inversion Hf as [|? cf Hcf| | | | | | | |]; subst; clear Hf. cbn [body] in Hcf. inversion Hcf as [? f Hf1| | | | | | | | |]; subst; clear Hcf. destruct Hf1 as [Hf1|[]].
    right. exists k, s, f. auto.
  Qed.
  Ltac shapes := repeat match goal with
    | H : map shape (_ :: _) = map shape _ |- _ => apply shape_cons in H; destruct H as (? & ? & -> & ? & H)
    | H : map shape [] = map shape _ |- _ => apply shape_nil in H; subst
    | H : shape (Leaf _) = shape _ |- _ => apply shape_leaf in H; destruct H as (? & -> & H)
    | H : shape (Node _ _) = shape _ |- _ => apply shape_node in H; destruct H as (? & -> & H)
    end.
  Lemma flags_like w w' S : Forall is_flag_char w -> Forall is_flag_char w' -> flags_ok w -> flags_denote w S -> flags_denote w' S -> regexp_flags w = regexp_flags w'.
  Proof.
    intros Hw Hw' Ho Hd Hd'. destruct (regexp_flags_spec w Hw) as [(S1 & D1 & C1 & ->)|[Hn _]]; [|contradiction]. rewrite (flags_denote_det _ _ _ D1 Hd) in *.
    destruct (regexp_flags_spec w' Hw') as [(S2 & D2 & C2 & ->)|[Hn _]]; [rewrite (flags_denote_det _ _ _ D2 Hd'); reflexivity|]. exfalso. apply Hn. exists S. auto.
  Qed.
  Lemma flag_chars k : tok_ok k -> t_type k = REGEXP_FLAGS -> Forall is_flag_char (t_text k).
  Proof. intros [H _] Ht. rewrite Ht in H. apply H. discriminate. Qed.
  Lemma regexp_like cr cr' : derives (body regexp) cr -> map shape cr = map shape cr' -> lk (flat_map leaves cr) (flat_map leaves cr') ->
    ev_regexp E C [Node regexp cr] = ev_regexp E C [Node regexp cr'].
  Proof.
    intros Hd Hs Hl. destruct (regexp_inv _ Hd) as [(k & -> & Hk)|(k & s & f & -> & Hk & Hs0 & Hf)]; clear Hd; shapes.
    - cbn in Hl. destruct Hl as ((_ & Hx) & _). destruct (Hx 0%nat _ _ eq_refl eq_refl) as (A & _ & _). pose proof (proj2 (HR _ _ (A Hk))) as A1.
      unfold ev_regexp. cbn. unfold get_text. cbn. rewrite !app_nil_r, A1. reflexivity.
    - cbn in Hl. destruct Hl as ((_ & Hx) & ((_ & (_ & Hc & _) & _) & _) & Ho & Ho'). destruct (Hx 0%nat _ _ eq_refl eq_refl) as (A & _ & _). pose proof (proj2 (HR _ _ (A Hk))) as A1.
      destruct (Hx 1%nat _ _ eq_refl eq_refl) as (_ & _ & B). destruct (B _ _ eq_refl eq_refl) as (_ & B1 & _). destruct (B1 Hs0 Hf) as (S & D1 & D2).
      unfold ev_regexp. cbn. unfold get_text. cbn. rewrite !app_nil_r, A1.
      inversion Ho as [|? ? _ Ho2]; subst. inversion Ho2 as [|? ? _ Ho3]; subst. inversion Ho3 as [|? ? Hof _]; subst.
      inversion Ho' as [|? ? _ Ho2']; subst. inversion Ho2' as [|? ? _ Ho3']; subst. inversion Ho3' as [|? ? Hof' _]; subst.
      assert (FL : regexp_flags (t_text f) = regexp_flags (t_text x1)); [|rewrite FL; reflexivity]. apply (flags_like _ _ S); [| | |exact D1|exact D2].
      + apply flag_chars; assumption.
      + apply flag_chars; [assumption|congruence].
      + apply (Hc Hs0 f [] eq_refl Hf).
  Qed.

  (** Rules whose value depends on what precedes them. *)
  Definition special (r : rule) : bool := valueless r || rule_eqb r within_part || rule_eqb r within_part_simple.
  Definition like1 (c : ptree) : Prop :=
    match c with
    | Leaf _ => True
    | Node r ch => special r = false -> forall c', shape c = shape c' -> lk (leaves c) (leaves c') ->
        option_map erase (ev E C c) = option_map erase (ev E C c')
    end.
  Definition no_within (c : ptree) : bool := match c with Node r _ => negb (rule_eqb r within_part || rule_eqb r within_part_simple) | Leaf _ => true end.
  Lemma evs_like ch : Forall like1 ch -> forallb no_within ch = true -> forall ch', map shape ch = map shape ch' -> lk (flat_map leaves ch) (flat_map leaves ch') ->
    option_map (map erase) (evs E C ch) = option_map (map erase) (evs E C ch').
  Proof.
    induction 1 as [|c ch Hc _ IH]; intros Hw ch' Hs Hl; [apply shape_nil in Hs; subst; reflexivity|].
    apply shape_cons in Hs. destruct Hs as (c' & r' & -> & Hs1 & Hs2). destruct (lk_cons _ _ _ _ Hs1 Hl) as [L1 L2]. cbn [forallb] in Hw. apply andb_true_iff in Hw. destruct Hw as [Hw1 Hw2].
    specialize (IH Hw2 r' Hs2 L2). destruct c as [k|r cc].
    - apply shape_leaf in Hs1. destruct Hs1 as (k' & -> & _). exact IH.
    - pose proof Hs1 as Hs0. apply shape_node in Hs1. destruct Hs1 as (cc' & -> & Hcc). cbn [evs]. destruct (valueless r) eqn:Hv; [exact IH|].
      assert (Hsp : special r = false) by (unfold special; rewrite Hv; cbn [no_within] in Hw1; apply negb_true_iff in Hw1; exact Hw1).
      specialize (Hc Hsp _ Hs0 L1). destruct (ev E C (Node r cc)), (ev E C (Node r cc')); cbn [option_map] in Hc; try discriminate Hc; [|reflexivity]. injection Hc as Hc.
      destruct (evs E C ch), (evs E C r'); cbn [option_map] in *; try discriminate IH; [|reflexivity]. injection IH as IH. cbn [map]. congruence.
  Qed.

  Fixpoint no_within_e (e : ebnf) : bool :=
    match e with
    | Tk _ => true
    | NT r => negb (rule_eqb r within_part || rule_eqb r within_part_simple)
    | Sq a b | Al a b => no_within_e a && no_within_e b
    | Op a | Pl a | St a => no_within_e a
    end.
  Lemma no_within_derives e x : derives e x -> no_within_e e = true -> forallb no_within x = true.
  Proof.
    induction 1 as [l t Hin|r ch Hd IH|a b x y _ IH1 _ IH2|a b x _ IH|a b x _ IH|e|e x _ IH|e x y _ IH1 _ IH2|e|e x y _ IH1 _ IH2];
      cbn [no_within_e]; intros He; try reflexivity; auto; try (apply andb_true_iff in He; destruct He); rewrite ?forallb_app, ?andb_true_iff; auto.
    cbn [forallb no_within]. rewrite He. reflexivity.
  Qed.
  Lemma find_regexp a b cr : (forall cc, In (Node regexp cc) a -> False) -> ev_regexp E C (a ++ Node regexp cr :: b) = ev_regexp E C [Node regexp cr].
  Proof.
    intros H. assert (Hf : find_rule regexp (a ++ Node regexp cr :: b) = Some (Node regexp cr)).
    { unfold find_rule. induction a as [|c a IH]; [reflexivity|]. cbn [app find]. destruct c as [k|r cc]; [apply IH; intros x Hx; apply (H x); right; exact Hx|].
      destruct (rule_eqb r regexp) eqn:Er; [|apply IH; intros x Hx; apply (H x); right; exact Hx].
      unfold rule_eqb in Er. destruct (rule_eq_dec r regexp); [|discriminate]. subst. exfalso. apply (H cc). left. reflexivity. }
    unfold ev_regexp. rewrite Hf. reflexivity.
  Qed.
  Lemma plain_like r t t' ch ch' qs qs' : option_map (map erase) qs = option_map (map erase) qs' ->
    List.length ch = List.length ch' -> repetition E ch = repetition E ch' ->
    special r = false -> r <> query -> r <> query_implicit -> r <> expression_basic ->
    option_map erase (ev_node E C r t ch qs) = option_map erase (ev_node E C r t' ch' qs').
  Proof.
    intros H Hl Hr Hs H1 H2 H3. destruct r; try discriminate Hs; try congruence; clear Hs H1 H2 H3; cbn [ev_node]; rewrite ?Hr, ?Hl.
    all: try (destruct qs as [[|a [|b [|c l]]]|], qs' as [[|a' [|b' [|c' l']]]|]; cbn [option_map map] in H; try discriminate H;
      try (injection H as H1 H2 H3); try (injection H as H1 H2); try (injection H as H1); cbn [option_map map erase];
      first [reflexivity|idtac]).
    all: try (destruct (repetition E ch') as [[mn mx]|]; cbn [option_map erase map]; congruence).
    all: try (destruct (List.length ch' =? 2)%nat; cbn [option_map erase map]; congruence).
    all: try (cbn [option_map erase map]; congruence).
  Qed.
  Lemma basic_inv ch : derives (body expression_basic) ch -> exists ca o cr,
    ch = [Node attribute ca; Leaf o; Node regexp cr] /\ derives (body attribute) ca /\ In (t_type o) [OPERATOR_EQ; OPERATOR_NE] /\ derives (body regexp) cr.
  Proof.
    intros Hd. cbn [body] in Hd. inversion Hd as [| |? ? xa x1 Ha Hd1| | | | | | |]; subst. clear Hd. inversion Hd1 as [| |? ? xo xr Ho Hr| | | | | | |]; subst. clear Hd1.
    inversion Ha as [|? ca Hca| | | | | | | |]; subst. inversion Hr as [|? cr Hcr| | | | | | | |]; subst. inversion Ho as [? o Hio| | | | | | | | |]; subst. cbn [app] in *. exists ca, o, cr. auto.
  Qed.
  Lemma name_not_lit k : In (t_type k) [IDENTIFIER; WITHIN; SIMPLE_WITHIN_SCOPE; REGEXP_FLAGS] -> t_type k <> REGEXP.
  Proof. intros [H|[H|[H|[H|[]]]]]; rewrite <- H; discriminate. Qed.
  Lemma attribute_inv ca : derives (body attribute) ca ->
    (exists i, ca = [Node identifier [Leaf i]] /\ t_type i <> REGEXP) \/ (exists q c i, ca = [Node qualifier [Leaf q]; Leaf c; Node identifier [Leaf i]] /\ t_type c = COLON /\ t_type i <> REGEXP /\ t_type q <> REGEXP).
  Proof.
    intros Hd. cbn [body] in Hd. inversion Hd as [| |? ? xa x1 Ha Hb| | | | | | |]; subst; clear Hd. inversion Hb as [|? ci Hci| | | | | | | |]; subst; clear Hb.
    cbn [body] in Hci. inversion Hci as [? i Hi| | | | | | | | |]; subst; clear Hci.
    inversion Ha as [| | | | | |? ? Hc| | |]; subst; clear Ha; [left; exists i; split; [reflexivity|exact (name_not_lit _ Hi)]|].
    inversion Hc as [| |? ? xq xc Hq Hk| | | | | | |]; subst; clear Hc. inversion Hk as [? c Hc1| | | | | | | | |]; subst; clear Hk. destruct Hc1 as [Hc1|[]].
    inversion Hq as [|? cq Hcq| | | | | | | |]; subst; clear Hq. cbn [body] in Hcq. inversion Hcq as [? q Hq1| | | | | | | | |]; subst; clear Hcq.
    right. exists q, c, i. split; [reflexivity|]. split; [auto|]. split; [exact (name_not_lit _ Hi)|exact (name_not_lit _ Hq1)].
  Qed.
  Lemma basic_like ch ch' : derives (body expression_basic) ch -> map shape ch = map shape ch' -> lk (flat_map leaves ch) (flat_map leaves ch') ->
    ev_attribute ch = ev_attribute ch' /\ ev_regexp E C ch = ev_regexp E C ch'.
  Proof.
    intros Hd Hs Hl. destruct (basic_inv _ Hd) as (ca & o & cr & -> & Ha & Ho & Hr). clear Hd.
    apply shape_cons in Hs. destruct Hs as (c1 & r1 & -> & S1 & Hs). pose proof S1 as S1'. apply shape_node in S1. destruct S1 as (ca' & -> & S1).
    apply shape_cons in Hs. destruct Hs as (c2 & r2 & -> & S2 & Hs). pose proof S2 as S2'. apply shape_leaf in S2. destruct S2 as (o' & -> & S2).
    apply shape_cons in Hs. destruct Hs as (c3 & r3 & -> & S3 & Hs). pose proof S3 as S3'. apply shape_node in S3. destruct S3 as (cr' & -> & S3). apply shape_nil in Hs. subst r3. split.
    - clear Hr S3 S3' S2' S1'. assert (Ho2 : In (t_type o) [COLON; OPERATOR_EQ; OPERATOR_NE]) by (right; exact Ho). destruct (attribute_inv _ Ha) as [(i & -> & Ni)|(q & c & i & -> & Hc & Ni & Nq)]; shapes; cbn in Hl; destruct Hl as ((_ & Hx) & _).
      + destruct (Hx 0%nat _ _ eq_refl eq_refl) as (_ & _ & A). destruct (A _ _ eq_refl eq_refl) as (A1 & _). unfold ev_attribute. cbn. unfold get_text. cbn. rewrite !app_nil_r, (A1 Ho2 Ni). reflexivity.
      + destruct (Hx 0%nat _ _ eq_refl eq_refl) as (_ & _ & A). destruct (A _ _ eq_refl eq_refl) as (A1 & _).
        destruct (Hx 2%nat _ _ eq_refl eq_refl) as (_ & _ & B). destruct (B _ _ eq_refl eq_refl) as (B1 & _).
        assert (Hc2 : In (t_type c) [COLON; OPERATOR_EQ; OPERATOR_NE]) by (left; symmetry; exact Hc). unfold ev_attribute. cbn. unfold get_text. cbn. rewrite !app_nil_r, (A1 Hc2 Nq), (B1 Ho2 Ni). reflexivity.
    - destruct (lk_cons _ _ _ _ S1' Hl) as [_ L2]. destruct (lk_cons _ _ _ _ S2' L2) as [_ L3]. cbn [flat_map leaves] in L3. rewrite !app_nil_r in L3.
      exact (regexp_like _ _ Hr S3 L3).
  Qed.
  Lemma implicit_inv ch : derives (body query_implicit) ch -> exists cr, ch = [Node regexp cr] /\ derives (body regexp) cr.
  Proof. intros Hd. cbn [body] in Hd. inversion Hd as [|? cr Hcr| | | | | | | |]; subst. eauto. Qed.
  Lemma query_inv ch : derives (body query) ch ->
    (exists c e, ch = [Node main_query c; Leaf e]) \/
    (exists c w k e, ch = [Node main_query c; Leaf w; Node within_part [Node within_part_simple [Leaf k]]; Leaf e] /\ t_type w = WITHIN /\ t_type k = SIMPLE_WITHIN_SCOPE).
  Proof.
    intros Hd. cbn [body] in Hd. inversion Hd as [| |? ? xa x1 Ha Hb| | | | | | |]; subst; clear Hd. inversion Hb as [| |? ? xo xe Ho He| | | | | | |]; subst; clear Hb.
    inversion Ha as [|? c Hc| | | | | | | |]; subst; clear Ha. inversion He as [? e _| | | | | | | | |]; subst; clear He.
    inversion Ho as [| | | | | |? ? Hw| | |]; subst; clear Ho; [left; exists c, e; reflexivity|].
    inversion Hw as [| |? ? xw xp Hw1 Hp| | | | | | |]; subst; clear Hw. inversion Hw1 as [? w Hw2| | | | | | | | |]; subst; clear Hw1. destruct Hw2 as [Hw2|[]].
    inversion Hp as [|? cp Hcp| | | | | | | |]; subst; clear Hp. cbn [body] in Hcp. inversion Hcp as [|? cs Hcs| | | | | | | |]; subst; clear Hcp. cbn [body] in Hcs.
    inversion Hcs as [? k Hk| | | | | | | | |]; subst; clear Hcs. destruct Hk as [Hk|[]]. right. exists c, w, k, e. auto.
  Qed.
  Lemma scope_like w w' sc : scope_word w sc -> scope_word w' sc -> within_scope w = within_scope w'.
  Proof.
    assert (L : forall x s, scope_word x s -> within_scope x = Ok s) by (intros x s H; destruct H; reflexivity). intros H H'. rewrite (L _ _ H), (L _ _ H'). reflexivity.
  Qed.
  Lemma query_like ch ch' : derives (body query) ch -> Forall like1 ch -> map shape ch = map shape ch' -> lk (flat_map leaves ch) (flat_map leaves ch') ->
    option_map erase (ev E C (Node query ch)) = option_map erase (ev E C (Node query ch')).
  Proof.
    intros Hd Hk Hs Hl. rewrite !ev_eq. destruct (query_inv _ Hd) as [(c & e & ->)|(c & w & k & e & -> & Hw & Hsc)]; clear Hd.
    - apply shape_cons in Hs. destruct Hs as (c1 & r1 & -> & S1 & Hs). pose proof S1 as S1'. apply shape_node in S1. destruct S1 as (ca' & -> & S1).
      destruct (lk_cons _ _ _ _ S1' Hl) as [L1 _]. inversion Hk as [|? ? Hc _]; subst. specialize (Hc eq_refl _ S1' L1). clear S1'. shapes. cbn [evs valueless ev_node find_rule find rule_eqb rule_eq_dec rule_rec rule_rect]. 
      unfold find_rule. cbn [find]. change (rule_eqb main_query within_part) with false. cbv iota.
      destruct (ev E C (Node main_query c)), (ev E C (Node main_query ca')); cbn [option_map] in *; congruence.
    - apply shape_cons in Hs. destruct Hs as (c1 & r1 & -> & S1 & Hs). pose proof S1 as S1'. apply shape_node in S1. destruct S1 as (ca' & -> & S1).
      destruct (lk_cons _ _ _ _ S1' Hl) as [L1 L2]. inversion Hk as [|? ? Hc _]; subst. specialize (Hc eq_refl _ S1' L1). clear S1'. shapes. cbn in L2. destruct L2 as ((_ & Hx) & _). destruct (Hx 0%nat _ _ eq_refl eq_refl) as (_ & _ & A). destruct (A _ _ eq_refl eq_refl) as (_ & _ & A1). destruct (A1 Hw Hsc) as (sc & D1 & D2).
      cbn [evs valueless]. rewrite !(ev_eq E C within_part). cbn [evs valueless]. rewrite !(ev_eq E C within_part_simple). cbn [ev_node]. rewrite !get_text_leaf.
      rewrite (scope_like _ _ _ D1 D2). unfold find_rule. cbn [find]. change (rule_eqb main_query within_part) with false. change (rule_eqb within_part within_part) with true. cbv iota.
      destruct (ev E C (Node main_query c)), (ev E C (Node main_query ca')); cbn [option_map] in *; try discriminate Hc; [|reflexivity]. injection Hc as Hc.
      destruct (within_scope (t_text _)); [|reflexivity]. cbn [option_map erase map]. congruence.
  Qed.
  Lemma rule_like r ch : derives (body r) ch -> Forall like1 ch -> like1 (Node r ch).
  Proof.
    intros Hd Hk Hsp c' Hs Hl. apply shape_node in Hs. destruct Hs as (ch' & -> & Hs). cbn [leaves] in Hl.
    destruct (rule_eq_dec r query) as [->|H1]; [apply query_like; assumption|].
    assert (Hlen : List.length ch = List.length ch') by (rewrite <- (map_length shape ch), Hs; apply map_length).
    rewrite !ev_eq.
    destruct (rule_eq_dec r query_implicit) as [->|H2].
    { destruct (implicit_inv _ Hd) as (cr & -> & Hr). apply shape_cons in Hs. destruct Hs as (c1 & r1 & -> & S1 & Hs). apply shape_nil in Hs. subst r1.
      apply shape_node in S1. destruct S1 as (cr' & -> & S1). cbn [flat_map leaves] in Hl. rewrite !app_nil_r in Hl. cbn [ev_node].
      rewrite (regexp_like _ _ Hr S1 Hl). destruct (ev_regexp E C _) as [[v fl]|]; reflexivity. }
    destruct (rule_eq_dec r expression_basic) as [->|H3].
    { destruct (basic_like _ _ Hd Hs Hl) as [A B]. cbn [ev_node]. rewrite A, B, (has_token_shape OPERATOR_EQ _ _ Hs).
      destruct (ev_attribute ch') as [[q i]|]; [|reflexivity]. destruct (ev_regexp E C ch') as [[v fl]|]; reflexivity. }
    apply plain_like; try assumption.
    - apply evs_like; try assumption. eapply no_within_derives; [exact Hd|]. destruct r; try reflexivity; congruence || discriminate Hsp.
    - eapply repetition_like; eassumption.
  Qed.
  Lemma derives_like e x : derives e x -> Forall like1 x.
  Proof.
    induction 1 as [l t Hin|r ch Hd IH|a b x y _ IH1 _ IH2|a b x _ IH|a b x _ IH|e|e x _ IH|e x y _ IH1 _ IH2|e|e x y _ IH1 _ IH2]; auto; try (apply Forall_app; auto).
    - constructor; [exact I|constructor].
    - constructor; [|constructor]. apply rule_like; assumption.
  Qed.
  Lemma tree_like t t' : parse_tree query t -> shape t = shape t' -> lk (leaves t) (leaves t') -> option_map erase (ev E C t) = option_map erase (ev E C t').
  Proof.
    intros Hp Hs Hl. pose proof (derives_like _ _ Hp) as H. inversion H as [|? ? Ht _]; subst. inversion Hp; subst. cbn [like1] in Ht. apply Ht; [reflexivity|exact Hs|exact Hl].
  Qed.

  (** Conditions on texts. *)
  Lemma same_conds l l' : says_if R E l l' -> conds E l -> conds E l'.
  Proof.
    revert l'. induction l as [|a l IH]; intros l' H Hc; [destruct H as [H _]; destruct l'; [exact I|discriminate]|].
    destruct l' as [|a' l']; [destruct H as [H _]; discriminate|].
    pose proof (proj2 (same_split [a] [a'] l l' eq_refl H)) as Hr. destruct Hc as [(A & B & D & F) Hc]. split; [|apply IH; assumption]. destruct H as [Ht H].
    assert (Ta : t_type a = t_type a') by (cbn in Ht; congruence).
    destruct (H 0%nat a a' eq_refl eq_refl) as (A1 & B1 & D1). split; [|split; [|split]].
    - intros Hy. apply (proj1 (HR _ _ (A1 ltac:(congruence)))).
    - intros Hy f' r' -> Hf. destruct l as [|f l]; [discriminate Ht|]. destruct (D1 f f' eq_refl eq_refl) as (_ & D2 & _). assert (Tf : t_type f = t_type f') by (cbn in Ht; congruence).
      destruct D2 as (S & S1 & S2); [congruence|congruence|]. destruct (B ltac:(congruence) f l eq_refl ltac:(congruence)) as (S' & X & Y). rewrite (flags_denote_det _ _ _ X S1) in Y. exists S. auto.
    - intros Hy. apply B1. congruence.
    - intros Hy c' b' r' -> Hc' Hb'. destruct l as [|c [|b l]]; try discriminate Ht. assert (Tc : t_type c = t_type c') by (cbn in Ht; congruence). assert (Tb : t_type b = t_type b') by (cbn in Ht; congruence).
      destruct (H 2%nat b b' eq_refl eq_refl) as (_ & B2 & _). destruct B1 as [B1 _]; [congruence|]. destruct B2 as [B2 _]; [congruence|]. rewrite <- B1, <- B2. apply (F ltac:(congruence) c b l eq_refl); congruence.
  Qed.
End Same.

Lemma same_says E C l l' : says_same E l l' -> says_if (fun w w' => decodable w' /\ regexp_value E C w = regexp_value E C w') E l l'.
Proof.
  intros [Ht H]. split; [exact Ht|]. intros i a a' Ha Ha'. destruct (H i a a' Ha Ha') as (A & B & D). split; [|split; [exact B|intros b b' Hb Hb'; destruct (D b b' Hb Hb') as (D1 & D2); split; [auto|exact D2]]].
  intros Hy. destruct (A Hy) as (v & A1 & A2). split; [exists v; exact A2|]. eapply value_like; eassumption.
Qed.
Lemma same_meaning_if V P q q' n : env_ok V -> lex_errors q' = [] ->
  says_if (fun w w' => decodable w' /\ regexp_value (e_penv V) (qp_cfg P) w = regexp_value (e_penv V) (qp_cfg P) w') (e_penv V) (tokens q) (tokens q') ->
  parse V P q = Ok n -> exists n', parse V P q' = Ok n' /\ erase n' = erase n.
Proof.
  intros HV He Hs Hp. assert (HR : forall w w', decodable w' /\ regexp_value (e_penv V) (qp_cfg P) w = regexp_value (e_penv V) (qp_cfg P) w' -> decodable w' /\ regexp_value (e_penv V) (qp_cfg P) w = regexp_value (e_penv V) (qp_cfg P) w') by auto.
  destruct (parse_ok_inv V P q n HV Hp) as (m0 & [[_ Hcf] Ht] & _).
  assert (Ht' : texts_ok (e_penv V) (tokens q')) by (apply texts_ok_conds; apply (same_conds _ _ _ HR _ _ Hs); apply texts_ok_conds; exact Ht).
  assert (Ha' : accepted V q') by (split; [split; [exact He|exact (conforms_types _ _ (same_types _ _ _ _ Hs) Hcf)]|exact Ht']).
  destruct (parse_outcome V P q' HV) as [(m & _ & _ & _ & Hm)|(Hn & _)]; [|contradiction]. eexists. split; [exact Hm|].
  destruct (parse_ev V P q n HV Hp) as (t & k & Hq & Hpt & Hl & Hk & _ & ->).
  destruct (parse_ev V P q' _ HV Hm) as (t' & k' & Hq' & _ & Hl' & Hk' & _ & Heq). rewrite Heq, !erase_with_locs.
  pose proof (antlr_query_shape (tokens q)) as A. rewrite (types_blank _ _ (same_types _ _ _ _ Hs)), antlr_query_shape, Hq, Hq' in A. injection A as A.
  pose proof (tree_like (e_penv V) (qp_cfg P) _ HR t t' Hpt (eq_sym A)) as B. rewrite Hl, Hl', Hk, Hk' in B. cbn [option_map] in B.
  symmetry. assert (X : Some (erase k) = Some (erase k')); [|injection X; auto]. apply B. split; [exact Hs|]. split; [split; apply texts_ok_conds; assumption|]. split; apply tokens_ok.
Qed.
Lemma same_meaning V P q q' n : env_ok V -> lex_errors q' = [] -> says_same (e_penv V) (tokens q) (tokens q') ->
  parse V P q = Ok n -> exists n', parse V P q' = Ok n' /\ erase n' = erase n.
Proof. intros HV He Hs Hp. eapply same_meaning_if; [exact HV|exact He|apply same_says; exact Hs|exact Hp]. Qed.
