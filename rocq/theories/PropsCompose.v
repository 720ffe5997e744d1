(** C58: the parts of a query are queries of their own, and queries can be put together. *)
From Coq Require Import String.
From Verif Require Import Base Regex LexRules Lexer Grammar Antlr Ast Builder Parser LexSpec LexFacts LexThms LexWs LexSub LitSpec LexRuleFacts
  GramSpec GramFacts ValueSpec ValueFacts SpellSpec SpellComplete BuilderFacts BuilderRules ParseSpec ParseFacts LevelFacts SelFacts PrecFacts PrecConv EvFacts SimFacts
  TreeSpec TreeFacts SitFacts LevelSpec LevelThm QuerySpec QueryThm SubEv PropsParse PropsTree PropsPrec PropsQuery PropsConfig ReadSpec ReadFacts ReadQuery ReadParse ReadTop PropsRead
  Outer Local ComposeSpec LexJoin Compose ComposeWalk ComposeParse.
Local Open Scope Z_scope.

(** Where the last token of a text ends. *)
Definition text_end (z : pystr) : Z := match rev (lx_tokens (lexemes z)) with [] => 0 | t :: _ => t_stop t + 1 end.

(** ** Facts *)
Lemma span_ends a ts b : span (a :: ts ++ [b]) = Some (mkLoc (t_start a) (t_stop b + 1)).
Proof. unfold span. change (a :: ts ++ [b]) with ((a :: ts) ++ [b]). rewrite last_last. reflexivity. Qed.
Lemma span_between ts ts' : ts <> [] -> ts' <> [] -> span (ts ++ ts') = between (span ts) (span ts').
Proof.
  destruct ts as [|a ts]; [congruence|]. intros _ H'. destruct (exists_last H') as (y & b & ->). destruct y as [|a' y]; cbn [app].
  - rewrite app_comm_cons, app_nil_l || idtac. change (a :: ts ++ [b]) with (a :: ts ++ [b]). rewrite span_ends. reflexivity.
  - replace (a :: ts ++ a' :: y ++ [b]) with (a :: (ts ++ a' :: y) ++ [b]) by (rewrite <- app_assoc; reflexivity). rewrite !span_ends. reflexivity.
Qed.
Lemma erase_move k n : erase (move_locs k n) = erase n.
Proof. induction n as [p l ch IH] using qnode_ind'. cbn. f_equal. rewrite map_map. apply map_ext_in. rewrite Forall_forall in IH. exact IH. Qed.
Lemma move_erase k n : move_locs k (erase n) = erase n.
Proof. induction n as [p l ch IH] using qnode_ind'. cbn. f_equal. rewrite map_map. apply map_ext_in. rewrite Forall_forall in IH. exact IH. Qed.
Lemma erase_class n : q_class (erase n) = q_class n.
Proof. destruct n; reflexivity. Qed.
Lemma erase_items n : map erase (items_of n) = items_of (erase n).
Proof. destruct n as [[] l ch]; reflexivity. Qed.
Lemma erase_operands n : map erase (operands_of n) = operands_of (erase n).
Proof. destruct n as [[] l ch]; reflexivity. Qed.
Lemma erase_content n : erase (content_of n) = content_of (erase n).
Proof. destruct n as [[] l ch]; reflexivity. Qed.
Lemma erase_unwrapped n : erase (unwrapped n) = unwrapped (erase n).
Proof. destruct n as [[] l [|c [|d ch]]]; reflexivity. Qed.
Lemma lift_off V P q : env_ok V -> enableSourceLocations (qp_cfg P) = false ->
  (forall n, parse V P q = Ok n -> exists n1, parse V (with_locations P) q = Ok n1 /\ n = erase n1) /\
  (forall r, parse V (with_locations P) q = Ok r -> parse V P q = Ok (erase r)).
Proof. intros HV Hoff. destruct (C24_locations_only V (with_locations P) P q HV eq_refl Hoff) as (A & B & _). auto. Qed.
Lemma o_main_first V P ts n : o_main (e_penv V) (qp_cfg P) (lv (e_penv V) (qp_cfg P)) ts n -> match ts with [] => True | t :: _ => cont_type (t_type t) = false end.
Proof.
  set (E := e_penv V) in *. set (C := qp_cfg P) in *. intros H.
  assert (I : forall ts n, o_item E C (lv E C) ts n -> match ts with [] => True | t :: _ => cont_type (t_type t) = false end).
  { clear. intros ts n H. inversion H as [tr tq v fl mn mx Hr Hq|l r tq mn mx Hl Hr Hq|l te r tq c mn mx Hl Hn Hr Hq|l tc r tq c mn mx Hl Hn Hr Hq]; subst; try (rewrite Hl; reflexivity).
    inversion Hr as [k v0 Hk|k s f v0 S Hk]; subst; cbn; rewrite Hk; reflexivity. }
  assert (J : forall ts ns, o_seq E C (lv E C) ts ns -> match ts with [] => True | t :: _ => cont_type (t_type t) = false end).
  { intros ts' ns H'. inversion H' as [? ? Hi|ts0 ? ? ? Hi]; subst; [eapply I; exact Hi|]. apply I in Hi as Hi'. destruct ts0; [destruct (o_item_ne V P _ _ Hi); reflexivity|exact Hi']. }
  inversion H as [? ? Hi|? ns Hs Hl|? ns Hs Hl]; subst; [eapply I; exact Hi|eapply J; exact Hs|].
  inversion Hs as [? ? Ho|ts0 ? ? ? ? Ho]; subst; [cbn in Hl; lia|].
  assert (K : match ts0 with [] => True | t :: _ => cont_type (t_type t) = false end /\ ts0 <> []).
  { inversion Ho as [? ? Hi|? ? Hi]; subst; [split; [eapply I; exact Hi|eapply (o_item_ne V P); exact Hi]|split; [eapply J; exact Hi|eapply (o_seq_ne V P); exact Hi]]. }
  destruct K as [K K']. destruct ts0; [congruence|exact K].
Qed.

Lemma rule_lparen : first_rule [40%N] L_PAREN. Proof. apply first_type_some. vm_compute. reflexivity. Qed.
Lemma rule_rparen : first_rule [41%N] R_PAREN. Proof. apply first_type_some. vm_compute. reflexivity. Qed.
Lemma rule_lsquare : first_rule [91%N] L_SQUARE_BRACKET. Proof. apply first_type_some. vm_compute. reflexivity. Qed.
Lemma rule_rsquare : first_rule [93%N] R_SQUARE_BRACKET. Proof. apply first_type_some. vm_compute. reflexivity. Qed.
Lemma rule_or : first_rule (u "|") OR. Proof. apply first_type_some. vm_compute. reflexivity. Qed.

Section On.
  Variables (V : env) (P : qparser).
  Hypothesis HV : env_ok V.
  Hypothesis Hon : enableSourceLocations (qp_cfg P) = true.
  Notation E := (e_penv V). Notation C := (qp_cfg P). Notation L := (lv E C).
  Lemma plain_parse q n : parse V P q = Ok n -> q_class n <> CQueryWithWithin ->
    lex_errors q = [] /\ ints V (nt q) /\ o_main E C L (nt q) n /\ starts_safe q.
  Proof.
    intros Hp Hc. apply (parse_nt V P HV Hon) in Hp. destruct Hp as (A & B & D). apply o_plain in D; [|exact Hc]. split; [exact A|]. split; [exact B|]. split; [exact D|].
    apply nt_starts_safe; [exact A|]. eapply o_main_first. exact D.
  Qed.
  Lemma any_parse q n : parse V P q = Ok n -> lex_errors q = [] /\ ints V (nt q) /\ o_query E C L (nt q ++ [e0]) n /\ starts_safe q.
  Proof.
    intros Hp. apply (parse_nt V P HV Hon) in Hp. destruct Hp as (A & B & D). split; [exact A|]. split; [exact B|]. split; [exact D|].
    apply nt_starts_safe; [exact A|]. remember (nt q ++ [e0]) as l eqn:Hl. destruct D as [ts n e Hm He|ts n w k sc e Hm Hw Hk Hsc He].
    - apply app_inj_tail in Hl. destruct Hl as [<- _]. eapply o_main_first. exact Hm.
    - change [w; k; e] with ([w; k] ++ [e]) in Hl. rewrite app_assoc in Hl. apply app_inj_tail in Hl. destruct Hl as [<- _]. apply o_main_first in Hm as Hf. destruct ts; [destruct (o_main_ne _ _ _ _ Hm); reflexivity|exact Hf].
  Qed.
  Lemma of_main q n : lex_errors q = [] -> ints V (nt q) -> o_main E C L (nt q) n -> parse V P q = Ok n.
  Proof. intros A B D. apply (parse_nt V P HV Hon). split; [exact A|]. split; [exact B|]. apply ory_plain; [exact D|reflexivity]. Qed.

  Lemma on_group q n z mn mx : parse V P q = Ok n -> q_class n <> CQueryWithWithin ->
    lex_errors z = [] -> quantified (lx_tokens (lexemes z)) mn mx -> ints V (lx_tokens (lexemes z)) ->
    parse V P (u "(" ++ q ++ u ")" ++ z) = Ok (QN (PQGroup mn mx) (Some (mkLoc 0 (zlen q + 2 + text_end z))) [content_of (move_locs 1 n)]).
  Proof.
    intros Hp Hc Hz Hq Hi. destruct (plain_parse q n Hp Hc) as (A & B & D & _).
    destruct (bracket_join 41%N R_PAREN z ltac:(cbn; auto) rule_rparen ltac:(discriminate)) as [N2 E2].
    destruct (nt_join q (u ")" ++ z) A ltac:(reflexivity)) as [N3 E3].
    destruct (bracket_join 40%N L_PAREN (q ++ u ")" ++ z) ltac:(cbn; auto) rule_lparen ltac:(discriminate)) as [N1 E1].
    change (40%N :: q ++ u ")" ++ z) with (u "(" ++ q ++ u ")" ++ z) in *. change (41%N :: z) with (u ")" ++ z) in *.
    rewrite N3, N2, map_app in N1. cbn [map] in N1. unfold nt in N1 at 3. rewrite !mv_mv in N1.
    apply of_main.
    - tauto.
    - rewrite N1. apply ints_cons. split; [discriminate|]. apply ints_app. split; [apply ints_mv; exact B|]. apply ints_cons. split; [discriminate|]. apply ints_mv. exact Hi.
    - rewrite N1. apply orm_item.
      match goal with |- o_item _ _ _ ?ts _ => assert (Hsp : span ts = Some (mkLoc 0 (zlen q + 2 + text_end z))) end.
      { unfold text_end. set (tz := lx_tokens (lexemes z)). destruct tz as [|b tz _] using rev_ind.
        - cbn [map rev]. rewrite span_ends. cbn [mv t_start t_stop]. f_equal. f_equal. lia.
        - rewrite rev_app_distr, map_app. cbn [rev app map]. match goal with |- span (?a :: ?x ++ ?r :: ?y ++ [?b]) = _ => replace (a :: x ++ r :: y ++ [b]) with (a :: (x ++ r :: y) ++ [b]) by (rewrite <- app_assoc; reflexivity) end. rewrite span_ends. cbn [mv t_start t_stop]. f_equal. f_equal. lia. }
      rewrite <- Hsp. apply ori_group; [reflexivity|apply o_main_content, o_main_mv; exact D|reflexivity|apply mv_quant; exact Hq].
  Qed.
  Lemma on_sequence q1 q2 n1 n2 : parse V P q1 = Ok n1 -> parse V P q2 = Ok n2 ->
    q_class n1 <> CQueryWithWithin -> q_class n2 <> CQueryWithWithin -> q_class n1 <> CQueryDisjunction -> q_class n2 <> CQueryDisjunction ->
    parse V P (q1 ++ q2) = Ok (QN PSequence (between (q_loc n1) (q_loc (move_locs (zlen q1) n2))) (items_of n1 ++ items_of (move_locs (zlen q1) n2))).
  Proof.
    intros Hp1 Hp2 Hc1 Hc2 Hd1 Hd2. destruct (plain_parse q1 n1 Hp1 Hc1) as (A1 & B1 & D1 & _). destruct (plain_parse q2 n2 Hp2 Hc2) as (A2 & B2 & D2 & S2).
    destruct (nt_join q1 q2 A1 S2) as [N1 E1]. apply of_main; [tauto|rewrite N1; apply ints_app; split; [exact B1|apply ints_mv; exact B2]|]. rewrite N1.
    apply (o_main_mv _ _ (zlen q1)) in D2. rewrite <- (mv_class (zlen q1) n2) in Hd2.
    pose proof (o_main_ne _ _ _ _ D1) as X1. pose proof (o_main_ne _ _ _ _ D2) as X2. pose proof (o_main_loc _ _ _ _ D1) as L1. pose proof (o_main_loc _ _ _ _ D2) as L2. rewrite L1, L2, <- span_between by assumption.
    apply o_main_items in D1; [|exact Hd1]. apply o_main_items in D2; [|exact Hd2]. destruct D1 as [D1 _]. destruct D2 as [D2 _].
    apply orm_seq; [apply o_seq_app; assumption|]. apply o_seq_ne in D1. apply o_seq_ne in D2. rewrite app_length. destruct (items_of n1); [tauto|]. destruct (items_of (move_locs _ _)); [tauto|]. cbn. lia.
  Qed.
  Lemma on_alternatives q1 q2 n1 n2 : parse V P q1 = Ok n1 -> parse V P q2 = Ok n2 ->
    q_class n1 <> CQueryWithWithin -> q_class n2 <> CQueryWithWithin ->
    parse V P (q1 ++ u "|" ++ q2) = Ok (QN PDisjunction (between (q_loc n1) (q_loc (move_locs (zlen q1 + 1) n2))) (operands_of n1 ++ operands_of (move_locs (zlen q1 + 1) n2))).
  Proof.
    intros Hp1 Hp2 Hc1 Hc2. destruct (plain_parse q1 n1 Hp1 Hc1) as (A1 & B1 & D1 & _). destruct (plain_parse q2 n2 Hp2 Hc2) as (A2 & B2 & D2 & S2).
    destruct (word_join (u "|") OR q2 rule_or ltac:(discriminate) S2) as [N2 E2].
    destruct (nt_join q1 (u "|" ++ q2) A1 ltac:(reflexivity)) as [N1 E1]. rewrite N2 in N1. cbn [map] in N1. rewrite mv_mv in N1. change (zlen (u "|")) with 1 in N1. rewrite (Z.add_comm 1 (zlen q1)) in N1.
    apply of_main; [tauto|rewrite N1; apply ints_app; split; [exact B1|apply ints_cons; split; [discriminate|apply ints_mv; exact B2]]|]. rewrite N1.
    apply (o_main_mv _ _ (zlen q1 + 1)) in D2.
    pose proof (o_main_ne _ _ _ _ D1) as X1. pose proof (o_main_ne _ _ _ _ D2) as X2. pose proof (o_main_loc _ _ _ _ D1) as L1. pose proof (o_main_loc _ _ _ _ D2) as L2.
    apply o_main_operands in D1. apply o_main_operands in D2. rewrite L1, L2.
    match goal with |- o_main _ _ _ (_ ++ ?k :: ?r) _ => replace (between (span (nt q1)) (span r)) with (span (nt q1 ++ k :: r)); [apply orm_or; [apply o_operands_app; [exact D1|reflexivity|exact D2]|]|] end.
    - assert (Y : forall ts ns, o_operands E C L ts ns -> (1 <= List.length ns)%nat) by (intros ts ns H; inversion H; cbn; lia). apply Y in D1. apply Y in D2. rewrite app_length. lia.
    - rewrite span_between by (discriminate || assumption). destruct (nt q1) as [|a x]; [reflexivity|]. destruct (exists_last X2) as (y & b & ->). destruct y as [|a' y]; [reflexivity|]. cbn [app]. match goal with |- between _ (span (?k :: _)) = _ => pose proof (span_ends k (a' :: y) b) as H1; cbn [app] in H1; rewrite H1, (span_ends a' y b) end. reflexivity.
  Qed.
  Lemma on_within q n w sc : parse V P q = Ok n -> q_class n <> CQueryWithWithin -> scope_word w sc ->
    parse V P (q ++ u " within " ++ w) = Ok (QN PWithWithin (between (q_loc n) (Some (mkLoc 0 (zlen q + 8 + zlen w)))) [n; QN (PSimpleWithin sc) (Some (mkLoc (zlen q + 8) (zlen q + 8 + zlen w))) []]).
  Proof.
    intros Hp Hc Hw. destruct (plain_parse q n Hp Hc) as (A & B & D & _).
    assert (N2 : nt (u " within " ++ w) = [mkTok WITHIN (u "within") 1 6 0 0; mkTok SIMPLE_WITHIN_SCOPE w 8 (7 + zlen w) 0 0] /\ lex_errors (u " within " ++ w) = []) by (destruct Hw; split; vm_compute; reflexivity).
    destruct N2 as [N2 E2]. destruct (nt_join q (u " within " ++ w) A ltac:(reflexivity)) as [N1 E1]. rewrite N2 in N1. cbn [map] in N1.
    apply (parse_nt V P HV Hon). split; [tauto|]. split; [rewrite N1; apply ints_app; split; [exact B|apply ints_cons; split; [discriminate|apply ints_cons; split; [discriminate|intros t []]]]|].
    rewrite N1, <- app_assoc. cbn [app]. rewrite (o_main_loc _ _ _ _ D).
    match goal with |- o_query _ _ _ (_ ++ [?w; ?k; _]) _ => pose proof (ory_within E C L (nt q) n w k sc e0 D eq_refl eq_refl Hw eq_refl) as H; assert (Hs : span (nt q ++ [w; k]) = between (span (nt q)) (span [w; k])) by (apply span_between; [eapply o_main_ne; exact D|discriminate]) end.
    rewrite Hs in H. assert (Hm : o_query E C L (nt q ++ [mv (zlen q) (mkTok WITHIN (u "within") 1 6 0 0); mv (zlen q) (mkTok SIMPLE_WITHIN_SCOPE w 8 (7 + zlen w) 0 0); e0]) (QN PWithWithin (between (span (nt q)) (Some (mkLoc 0 (zlen q + 8 + zlen w)))) [n; QN (PSimpleWithin sc) (Some (mkLoc (zlen q + 8) (zlen q + 8 + zlen w))) []])); [|exact Hm].
    replace (QN PWithWithin _ _) with (QN PWithWithin (between (span (nt q)) (span [mv (zlen q) (mkTok WITHIN (u "within") 1 6 0 0); mv (zlen q) (mkTok SIMPLE_WITHIN_SCOPE w 8 (7 + zlen w) 0 0)])) [n; QN (PSimpleWithin sc) (span [mv (zlen q) (mkTok SIMPLE_WITHIN_SCOPE w 8 (7 + zlen w) 0 0)]) []]); [exact H|].
    cbn [span last mv t_start t_stop]. replace (7 + zlen w + zlen q + 1) with (zlen q + 8 + zlen w) by lia. replace (8 + zlen q) with (zlen q + 8) by lia. destruct (span (nt q)); reflexivity.
  Qed.
End On.
Lemma zlen_slice s a b : 0 <= a -> a <= b -> b <= zlen s -> zlen (slice s a b) = b - a.
Proof.
  intros Ha Hab Hb. unfold slice, slice_index. destruct (Z.ltb_spec a 0); [lia|]. destruct (Z.ltb_spec b 0); [lia|]. rewrite !Z.min_l by lia. unfold zlen in *. rewrite firstn_length, skipn_length. lia.
Qed.
Lemma piece_text q pre te post : lex_errors q = [] -> lx_tokens (lexemes q) = pre ++ te ++ post -> te <> [] ->
  exists x w y, q = x ++ w ++ y /\ nt w = map (mv (- zlen x)) te /\ lex_errors w = [] /\ span te = Some (mkLoc (zlen x) (zlen x + zlen w)).
Proof.
  intros He Ht Hne. destruct te as [|a r]; [congruence|]. destruct (nt_span q pre a r post He Ht) as (N & Hw & x & y & Hq & Hx). destruct (token_span q pre a r post He Ht) as (H1 & H2 & _).
  eexists x, _, y. split; [exact Hq|]. split; [rewrite Hx; exact N|]. split; [exact Hw|]. rewrite zlen_slice by lia. unfold span. rewrite Hx. f_equal. f_equal. lia.
Qed.
Section Part.
  Variables (V : env) (P : qparser) (q : pystr) (n : qnode).
  Hypothesis HV : env_ok V.
  Hypothesis Hon : enableSourceLocations (qp_cfg P) = true.
  Hypothesis Hp : parse V P q = Ok n.
  Notation E := (e_penv V). Notation C := (qp_cfg P). Notation L := (lv E C).
  Lemma query_piece m : subnode m n -> outer m = true -> exists pre te post, lx_tokens (lexemes q) = pre ++ te ++ post /\ o_main E C L te (unwrapped m) /\ q_loc m = span te.
  Proof.
    intros Hm Ho. pose proof (parse_o V P q n HV Hon Hp) as D. rewrite tokens_split in D. remember (lx_tokens (lexemes q) ++ [eof_token q]) as l eqn:Hl. destruct D as [ts n e Hmn He|ts n w k sc e Hmn Hw Hk Hsc He].
    - apply app_inj_tail in Hl. destruct Hl as [<- _]. exact (o_main_sub _ _ _ _ _ Hmn Hm Ho).
    - change [w; k; e] with ([w; k] ++ [e]) in Hl. rewrite app_assoc in Hl. apply app_inj_tail in Hl. destruct Hl as [<- _]. apply piece_l.
      inversion Hm as [|? ? ? c Hc Hm']; subst; [discriminate Ho|]. destruct Hc as [<-|[<-|[]]]; [exact (o_main_sub _ _ _ _ _ Hmn Hm' Ho)|].
      inversion Hm' as [|? ? ? c Hc]; subst; [discriminate Ho|destruct Hc].
  Qed.
  Lemma q_errors : lex_errors q = [] /\ ints V (lx_tokens (lexemes q)).
  Proof. apply (parse_nt V P HV Hon) in Hp. destruct Hp as (A & B & _). split; [exact A|]. unfold nt in B. apply ints_mv in B. exact B. Qed.
  Lemma on_part m : subnode m n -> outer m = true \/ q_class m = CQueryWithWithin ->
    exists pre s post, q = pre ++ s ++ post /\ parse V P s = Ok (move_locs (- zlen pre) (unwrapped m)) /\ q_loc m = Some (mkLoc (zlen pre) (zlen pre + zlen s)).
  Proof.
    destruct q_errors as [He Hi]. intros Hm [Ho|Ho].
    - destruct (query_piece m Hm Ho) as (pre & te & post & Ht & Hmn & Hl). destruct (piece_text q pre te post He Ht (o_main_ne _ _ _ _ Hmn)) as (x & w & y & Hq & Hn & Hw & Hs).
      exists x, w, y. split; [exact Hq|]. split; [|congruence]. apply of_main; auto; [rewrite Hn; apply ints_mv; rewrite Ht in Hi; apply ints_app in Hi; destruct Hi as [_ Hi]; apply ints_app in Hi; apply Hi|].
      rewrite Hn. apply o_main_mv. exact Hmn.
    - pose proof (parse_o V P q n HV Hon Hp) as D. rewrite tokens_split in D. remember (lx_tokens (lexemes q) ++ [eof_token q]) as l eqn:Hl. destruct D as [ts n e Hmn _|ts n w k sc e Hmn Hw Hk Hsc _].
      { exfalso. refine (proj1 (main_inner E C ts n m _ Hm) Ho). eapply o_main_sound; [apply lv_sp|exact Hmn]. }
      assert (m = QN PWithWithin (span (ts ++ [w; k])) [n; QN (PSimpleWithin sc) (span [k]) []]) as ->.
      { inversion Hm as [|? ? ? c Hc Hm']; subst; [reflexivity|]. exfalso. destruct Hc as [<-|[<-|[]]].
        - refine (proj1 (main_inner E C ts n m _ Hm') Ho). eapply o_main_sound; [apply lv_sp|exact Hmn].
        - inversion Hm' as [|? ? ? c Hc]; subst; [discriminate Ho|destruct Hc]. }
      change [w; k; e] with ([w; k] ++ [e]) in Hl. rewrite app_assoc in Hl. apply app_inj_tail in Hl. destruct Hl as [Ht _].
      destruct (piece_text q [] (ts ++ [w; k]) [] He) as (x & s & y & Hq & Hn & Hs & Hsp); [rewrite app_nil_r; symmetry; exact Ht|intros Hx; apply app_eq_nil in Hx; destruct Hx; discriminate|].
      exists x, s, y. split; [exact Hq|]. split; [|exact Hsp]. apply (parse_nt V P HV Hon). split; [exact Hs|]. split; [rewrite Hn; apply ints_mv; rewrite Ht; exact Hi|].
      cbn [unwrapped]. change e0 with (mv (- zlen x) (mkTok EOF [] (zlen x) (zlen x) 0 0)) at 1 || idtac. rewrite Hn.
      eapply o_query_eof with (e := mv (- zlen x) e0); [|reflexivity]. change [mv (- zlen x) e0] with (map (mv (- zlen x)) [e0]). rewrite <- map_app, <- app_assoc. apply o_query_mv. apply ory_within; auto. reflexivity.
  Qed.
  (** A bracketed level. *)
  Lemma level_piece m c : subnode m n -> level_of m c -> exists pre te post, lx_tokens (lexemes q) = pre ++ te ++ post /\ L te c.
  Proof.
    intros Hm [Hch [Hcl|(Hcl & Hc1 & Hc2)]].
    - destruct (parse_sub V P q n m HV Hp Hm) as (r & ch & m0 & K & pre & ts & rest & Hm0 & Hev & Hmk & (tq & Htq & Hsub) & Hts & Hsel & HKv & HKo).
      rewrite Hon in Hm0. cbn [with_locs] in Hm0. subst m0.
      assert (r = expression_group) as -> by (unfold q_class in Hcl; destruct (q_payload m); try discriminate Hcl; destruct r; try discriminate Hmk; reflexivity).
      apply sel_nt in Hsel. destruct Hsel as (ch' & Heq & Hsel). injection Heq as <-. cbn [body] in Hsel.
      apply sel_sq in Hsel. destruct Hsel as (x & y & r1 & -> & H1 & H2). apply sel_tk in H1. destruct H1 as (l & -> & -> & [Hl|[]]).
      apply sel_sq in H2. destruct H2 as (x2 & y2 & r2 & -> & H2 & H3). apply sel_tk in H3. destruct H3 as (kc & -> & -> & [Hk|[]]).
      destruct (op_E5 _ (sel_drv _ _ _ _ _ H2)) as (t & -> & Hop). pose proof (sel_eq _ _ _ _ _ H2) as E2. cbn in E2. rewrite app_nil_r in E2. subst r1.
      rewrite ev_eq in Hev. cbn [ev_node app] in Hev. rewrite evs_leaf, evs_op in Hev by exact Hop. destruct (ev _ _ t) as [c0'|] eqn:Hc; [|discriminate]. cbn [evs] in Hev. injection Hev as <-. cbn in Hch. injection Hch as ->.
      assert (Hx : tokens q = (pre ++ [l]) ++ leaves t ++ kc :: rest) by (rewrite Hts, <- app_assoc; reflexivity).
      destruct (drop_eof q (pre ++ [l]) (leaves t) kc rest Hx) as (post & Hpost); [rewrite <- Hk; discriminate|].
      exists (pre ++ [l]), (leaves t), (kc :: post). split; [exact Hpost|].
      assert (Hsp : sp_expr E C (leaves t) c).
      { pose proof (tok_ok_sub q _ _ Hx) as Htk. apply Forall_app in Htk. destruct Htk as [Htk _].
        pose proof (conds_sub V P q n _ _ HV Hp Hx) as Hcd. apply conds_weaken_app in Hcd. destruct Hcd as [Hcd _].
        pose proof (sel_drv _ _ _ _ _ H2) as Hd.
        assert (Hr : rooted t) by (destruct t; [destruct Hop|]; pose proof (derives_rooted _ _ Hd) as HF; inversion HF; subst; assumption).
        destruct t as [k|r ch]; [destruct Hop|]. destruct (ev_sound E C r ch) as (n' & Hn' & Hsp & _); [split; auto|exact Hop|]. replace c with n' by congruence. exact Hsp. }
      eapply lv_of; [exact Hsp|exact H2|symmetry; exact Hk|reflexivity|exact HKv|exact Hc].
    - assert (Ho : outer m = true) by (unfold outer; rewrite Hcl; reflexivity).
      destruct (query_piece m Hm Ho) as (pre & te & post & Ht & Hmn & Hl). assert (Hu : unwrapped m = m) by (destruct m as [[] l ch]; try discriminate; reflexivity). rewrite Hu in Hmn.
      inversion Hmn as [? ? Hi|? ns Hs|? ns Hs]; subst; try discriminate.
      inversion Hi as [tr tq v fl mn mx Hr Hq|l r tq mn mx Hl' Hr Hq|l te' r tq c' mn mx Hl' Hn Hr Hq|l tc r tq c' mn mx Hl' Hn Hr Hq]; subst; try discriminate Hcl; cbn in Hch; injection Hch as <-.
      + destruct (Hc1 eq_refl).
      + destruct (Hc2 eq_refl).
      + exists (pre ++ [l]), te', (r :: tq ++ post). split; [rewrite Ht, <- app_assoc; cbn [app]; rewrite <- app_assoc; reflexivity|exact Hn].
  Qed.
  Lemma lv_loc te c : L te c -> q_loc c = span te /\ te <> [].
  Proof. intros [H _]. split; [exact (stands_loc E C _ _ (st_expr _ _ _ _ H))|eapply (proj1 (expr_ne E C)); exact H]. Qed.
  Lemma on_level_part m c : subnode m n -> level_of m c ->
    exists pre s post, q = pre ++ s ++ post /\ q_loc c = Some (mkLoc (zlen pre) (zlen pre + zlen s)) /\
      parse V P (u "[" ++ s ++ u "]") = Ok (QN (PSegment 1 1) (Some (mkLoc 0 (zlen s + 2))) [move_locs (1 - zlen pre) c]).
  Proof.
    destruct q_errors as [He Hi]. intros Hm Hc. destruct (level_piece m c Hm Hc) as (pre & te & post & Ht & Hlv). destruct (lv_loc te c Hlv) as [Hloc Hne].
    destruct (piece_text q pre te post He Ht Hne) as (x & w & y & Hq & Hn & Hw & Hs). exists x, w, y. split; [exact Hq|]. split; [congruence|].
    destruct (bracket_join 93%N R_SQUARE_BRACKET [] ltac:(cbn; auto) rule_rsquare ltac:(discriminate)) as [N2 E2].
    destruct (nt_join w (u "]") Hw ltac:(reflexivity)) as [N3 E3].
    destruct (bracket_join 91%N L_SQUARE_BRACKET (w ++ u "]") ltac:(cbn; auto) rule_lsquare ltac:(discriminate)) as [N1 E1].
    change (91%N :: w ++ u "]") with (u "[" ++ w ++ u "]") in *. change [93%N] with (u "]") in *.
    rewrite N3, N2, Hn, map_app in N1. cbn [map] in N1. rewrite !mv_mv in N1. change (nt []) with (@nil token) in N1. cbn [map] in N1.
    assert (Hie : ints V te) by (rewrite Ht in Hi; apply ints_app in Hi; destruct Hi as [_ Hi]; apply ints_app in Hi; apply Hi).
    apply of_main; auto.
    - apply E1, E3, E2. reflexivity.
    - rewrite N1. apply ints_cons. split; [discriminate|]. apply ints_app. split; [apply ints_mv; exact Hie|]. apply ints_cons. split; [discriminate|intros t []].
    - rewrite N1. apply orm_item. replace (- zlen x + 1) with (1 - zlen x) by lia.
      match goal with |- o_item _ _ _ (?l :: ?te ++ [?r]) _ => assert (Hsp : span (l :: te ++ [r]) = Some (mkLoc 0 (zlen w + 2))) by (rewrite span_ends; cbn [mv t_start t_stop]; f_equal; f_equal; lia) end.
      rewrite <- Hsp. apply ori_segment; [reflexivity|apply lv_mv; exact Hlv|reflexivity|apply q_none].
  Qed.
End Part.

(** ** C58 *)
(** Taking apart: the text of every segment, group, sequence, disjunction (and of the whole query) is itself
    an accepted query, and its tree is that part of the tree (a sequence of one item being that item). *)
Theorem C58_part : forall V P q n m, env_ok V -> parse V P q = Ok n -> subnode m n ->
  In (q_class m) [CQuerySegment; CQueryGroup; CQuerySequence; CQueryDisjunction; CQueryWithWithin] ->
  exists pre s post, q = pre ++ s ++ post /\ parse V P s = Ok (move_locs (- zlen pre) (unwrapped m)) /\
    q_loc m = located P (zlen pre) (zlen pre + zlen s).
Proof.
  assert (X : forall m, In (q_class m) [CQuerySegment; CQueryGroup; CQuerySequence; CQueryDisjunction; CQueryWithWithin] -> outer m = true \/ q_class m = CQueryWithWithin).
  { intros m Hc. unfold outer. cbn [In] in Hc. destruct Hc as [<-|[<-|[<-|[<-|[<-|[]]]]]]; auto. }
  intros V P q n m HV Hp Hm Hc. apply X in Hc. unfold located. destruct (enableSourceLocations (qp_cfg P)) eqn:Hb; [exact (on_part V P q n HV Hb Hp m Hm Hc)|].
  destruct (proj1 (lift_off V P q HV Hb) n Hp) as (n1 & Hp1 & ->). apply (subnode_with_locs false) in Hm. destruct Hm as (m1 & Hm1 & ->). cbn [with_locs] in *. rewrite erase_class in Hc.
  assert (Hc1 : outer m1 = true \/ q_class m1 = CQueryWithWithin) by (unfold outer in *; rewrite erase_class in Hc; exact Hc).
  destruct (on_part V (with_locations P) q n1 HV eq_refl Hp1 m1 Hm1 Hc1) as (pre & s & post & Hq & Hps & _).
  exists pre, s, post. split; [exact Hq|]. apply (proj2 (lift_off V P s HV Hb)) in Hps. rewrite erase_move, erase_unwrapped in Hps. split; [|destruct m1; reflexivity].
  rewrite Hps, <- erase_unwrapped, move_erase. reflexivity.
Qed.
(** The level between the brackets of a segment or of a parenthesised expression reads the same between square
    brackets of its own, whatever stood around it: whether or not it is read in the documented way. *)
Theorem C58_level : forall V P q n m c, env_ok V -> parse V P q = Ok n -> subnode m n -> level_of m c ->
  exists pre s post, q = pre ++ s ++ post /\ q_loc c = located P (zlen pre) (zlen pre + zlen s) /\
    parse V P (u "[" ++ s ++ u "]") = Ok (QN (PSegment 1 1) (located P 0 (zlen s + 2)) [move_locs (1 - zlen pre) c]).
Proof.
  intros V P q n m c HV Hp Hm Hc. unfold located. destruct (enableSourceLocations (qp_cfg P)) eqn:Hb; [exact (on_level_part V P q n HV Hb Hp m c Hm Hc)|].
  destruct (proj1 (lift_off V P q HV Hb) n Hp) as (n1 & Hp1 & ->). apply (subnode_with_locs false) in Hm. destruct Hm as (m1 & Hm1 & ->). cbn [with_locs] in *.
  assert (Hc1 : exists c1, c = erase c1 /\ level_of m1 c1).
  { destruct Hc as [Hch Hc]. rewrite erase_class in Hc. destruct m1 as [p l ch]. cbn [erase q_children] in Hch. destruct ch as [|c1 [|c2 ch]]; try discriminate Hch. cbn in Hch. injection Hch as <-. exists c1. split; [reflexivity|]. split; [reflexivity|]. rewrite erase_class in Hc. exact Hc. }
  destruct Hc1 as (c1 & -> & Hc1). destruct (on_level_part V (with_locations P) q n1 HV eq_refl Hp1 m1 c1 Hm1 Hc1) as (pre & s & post & Hq & _ & Hps).
  exists pre, s, post. split; [exact Hq|]. split; [destruct c1; reflexivity|]. apply (proj2 (lift_off V P _ HV Hb)) in Hps. rewrite Hps. cbn [erase map]. rewrite erase_move, move_erase. reflexivity.
Qed.
(** Putting together: an accepted query between parentheses, with a repetition or without. *)
Theorem C58_group : forall V P q n z mn mx, env_ok V -> parse V P q = Ok n -> q_class n <> CQueryWithWithin ->
  lex_errors z = [] -> quantified (lx_tokens (lexemes z)) mn mx ->
  (forall t, In t (lx_tokens (lexemes z)) -> t_type t = INTEGER -> int_ok (e_penv V) (t_text t)) ->
  parse V P (u "(" ++ q ++ u ")" ++ z) =
    Ok (QN (PQGroup mn mx) (located P 0 (zlen q + 2 + text_end z)) [content_of (move_locs 1 n)]).
Proof.
  intros V P q n z mn mx HV Hp Hc Hz Hq Hi. unfold located. destruct (enableSourceLocations (qp_cfg P)) eqn:Hb; [apply on_group; assumption|].
  destruct (proj1 (lift_off V P q HV Hb) n Hp) as (n1 & Hp1 & ->). rewrite erase_class in Hc.
  pose proof (on_group V (with_locations P) HV eq_refl q n1 z mn mx Hp1 Hc Hz Hq Hi) as H. apply (proj2 (lift_off V P _ HV Hb)) in H. rewrite H. cbn [erase map]. rewrite erase_content, erase_move, move_erase. reflexivity.
Qed.
(** Two queries one after the other. *)
Theorem C58_sequence : forall V P q1 q2 n1 n2, env_ok V -> parse V P q1 = Ok n1 -> parse V P q2 = Ok n2 ->
  ~ In (q_class n1) [CQueryWithWithin; CQueryDisjunction] -> ~ In (q_class n2) [CQueryWithWithin; CQueryDisjunction] ->
  parse V P (q1 ++ q2) = Ok (QN PSequence (between (q_loc n1) (q_loc (move_locs (zlen q1) n2))) (items_of n1 ++ items_of (move_locs (zlen q1) n2))).
Proof.
  assert (X : forall c, ~ In c [CQueryWithWithin; CQueryDisjunction] -> c <> CQueryWithWithin /\ c <> CQueryDisjunction) by (intros c H; split; intros ->; apply H; cbn; auto).
  intros V P q1 q2 n1 n2 HV Hp1 Hp2 H1 H2. apply X in H1. apply X in H2. destruct H1 as [Hw1 Hd1]. destruct H2 as [Hw2 Hd2].
  destruct (enableSourceLocations (qp_cfg P)) eqn:Hb; [apply on_sequence; assumption|].
  destruct (proj1 (lift_off V P q1 HV Hb) n1 Hp1) as (m1 & Hq1 & ->). destruct (proj1 (lift_off V P q2 HV Hb) n2 Hp2) as (m2 & Hq2 & ->). rewrite erase_class in *.
  pose proof (on_sequence V (with_locations P) HV eq_refl q1 q2 m1 m2 Hq1 Hq2 Hw1 Hw2 Hd1 Hd2) as H. apply (proj2 (lift_off V P _ HV Hb)) in H. rewrite H.
  cbn [erase]. rewrite map_app, !erase_items, erase_move, move_erase. destruct m1; reflexivity.
Qed.
(** Two queries as alternatives. *)
Theorem C58_alternatives : forall V P q1 q2 n1 n2, env_ok V -> parse V P q1 = Ok n1 -> parse V P q2 = Ok n2 ->
  q_class n1 <> CQueryWithWithin -> q_class n2 <> CQueryWithWithin ->
  parse V P (q1 ++ u "|" ++ q2) =
    Ok (QN PDisjunction (between (q_loc n1) (q_loc (move_locs (zlen q1 + 1) n2))) (operands_of n1 ++ operands_of (move_locs (zlen q1 + 1) n2))).
Proof.
  intros V P q1 q2 n1 n2 HV Hp1 Hp2 Hw1 Hw2.
  destruct (enableSourceLocations (qp_cfg P)) eqn:Hb; [apply on_alternatives; assumption|].
  destruct (proj1 (lift_off V P q1 HV Hb) n1 Hp1) as (m1 & Hq1 & ->). destruct (proj1 (lift_off V P q2 HV Hb) n2 Hp2) as (m2 & Hq2 & ->). rewrite erase_class in *.
  pose proof (on_alternatives V (with_locations P) HV eq_refl q1 q2 m1 m2 Hq1 Hq2 Hw1 Hw2) as H. apply (proj2 (lift_off V P _ HV Hb)) in H. rewrite H.
  cbn [erase]. rewrite map_app, !erase_operands, erase_move, move_erase. destruct m1; reflexivity.
Qed.
(** A query and a within clause. *)
Theorem C58_within : forall V P q n w sc, env_ok V -> parse V P q = Ok n -> q_class n <> CQueryWithWithin -> scope_word w sc ->
  parse V P (q ++ u " within " ++ w) =
    Ok (QN PWithWithin (between (q_loc n) (located P 0 (zlen q + 8 + zlen w)))
          [n; QN (PSimpleWithin sc) (located P (zlen q + 8) (zlen q + 8 + zlen w)) []]).
Proof.
  intros V P q n w sc HV Hp Hc Hw. unfold located. destruct (enableSourceLocations (qp_cfg P)) eqn:Hb; [apply on_within; assumption|].
  destruct (proj1 (lift_off V P q HV Hb) n Hp) as (n1 & Hp1 & ->). rewrite erase_class in Hc.
  pose proof (on_within V (with_locations P) HV eq_refl q n1 w sc Hp1 Hc Hw) as H. apply (proj2 (lift_off V P _ HV Hb)) in H. rewrite H. destruct n1; reflexivity.
Qed.

(** ** Witnesses *)
Definition parsed (s : string) : option qnode := match parse some_env default_parser (u s) with Ok n => Some n | Raise _ => None end.
Lemma parsed_ok s n : parsed s = Some n -> parse some_env default_parser (u s) = Ok n.
Proof. unfold parsed. destruct (parse _ _ _); [congruence|discriminate]. Qed.
Lemma subnode_all m n : In m (all_nodes n) -> subnode m n.
Proof.
  induction n as [p l ch IH] using qnode_ind'. cbn [all_nodes]. intros [<-|H]; [apply sub_here|]. apply in_flat_map in H. destruct H as (c & Hc & H). rewrite Forall_forall in IH. eapply sub_child; [exact Hc|apply IH; assumption].
Qed.
(** The group, the disjunction in it and the sequence of one item in that. *)
Example C58_witness_part : exists n, parse some_env default_parser (u "'a' ('b' | ('c'))+") = Ok n /\
  map (fun m => (q_class m, q_loc m)) (filter (fun m => outer m) (all_nodes n)) =
  [(CQuerySequence, Some (mkLoc 0 18)); (CQuerySegment, Some (mkLoc 0 3)); (CQueryGroup, Some (mkLoc 4 18)); (CQueryDisjunction, Some (mkLoc 5 16));
   (CQuerySegment, Some (mkLoc 5 8)); (CQuerySequence, Some (mkLoc 11 16)); (CQueryGroup, Some (mkLoc 11 16)); (CQuerySequence, Some (mkLoc 12 15)); (CQuerySegment, Some (mkLoc 12 15))] /\
  forall m, In m (filter (fun m => outer m) (all_nodes n)) -> subnode m n.
Proof.
  destruct (parsed "'a' ('b' | ('c'))+") as [n|] eqn:H; [|vm_compute in H; discriminate]. exists n. split; [apply parsed_ok; exact H|]. split.
  - vm_compute in H. injection H as <-. vm_compute. reflexivity.
  - intros m Hm. apply subnode_all. apply filter_In in Hm. apply Hm.
Qed.
(** A level in a parenthesised expression that is not read in the documented way reads the same on its own. *)
Example C58_witness_level : exists n m c, parse some_env default_parser (u "'u' [!(a='x' & !b='y' | c='z' | d='w')]") = Ok n /\
  subnode m n /\ level_of m c /\ q_class m = CExpressionGroup /\ q_loc c = Some (mkLoc 7 37) /\
  skel_of c = SOr [SAnd [SAtom (u "a"); SOr [SNot [SAtom (u "b")]; SAtom (u "c")]]; SAtom (u "d")].
Proof.
  destruct (parsed "'u' [!(a='x' & !b='y' | c='z' | d='w')]") as [n|] eqn:H; [|vm_compute in H; discriminate]. exists n.
  assert (Hm : exists m, nth_error (all_nodes n) 5 = Some m) by (vm_compute in H; injection H as <-; eexists; reflexivity). destruct Hm as (m & Hm).
  assert (Hc : exists c, q_children m = [c] /\ q_class m = CExpressionGroup /\ q_loc c = Some (mkLoc 7 37) /\ skel_of c = SOr [SAnd [SAtom (u "a"); SOr [SNot [SAtom (u "b")]; SAtom (u "c")]]; SAtom (u "d")]).
  { vm_compute in H. injection H as <-. vm_compute in Hm. injection Hm as <-. eexists. split; [reflexivity|]. split; [reflexivity|]. split; vm_compute; reflexivity. }
  destruct Hc as (c & H1 & H2 & H3 & H4). exists m, c. split; [apply parsed_ok; exact H|]. split; [apply subnode_all; eapply nth_error_In; exact Hm|]. split; [split; [exact H1|left; exact H2]|]. auto.
Qed.
Example C58_witness_group : quantified (lx_tokens (lexemes (u " {2,3}"))) 2 3 /\ lex_errors (u " {2,3}") = [] /\ text_end (u " {2,3}") = 6.
Proof.
  split; [|split; vm_compute; reflexivity]. remember (lx_tokens (lexemes (u " {2,3}"))) as ts eqn:H. vm_compute in H. subst ts. apply q_range; try reflexivity; [split; vm_compute; reflexivity|split; vm_compute; reflexivity|lia].
Qed.
Example C58_witness_compose :
  option_map q_class (parsed "('a' | 'b') {2,3}") = Some CQueryGroup /\ option_map q_class (parsed " 'a' [w='b']") = Some CQuerySequence /\
  option_map (fun n => map q_class (operands_of n)) (parsed "'a' | ('b')") = Some [CQuerySegment; CQuerySequence] /\
  option_map (fun n => map q_class (operands_of n)) (parsed "('b')") = Some [CQuerySequence].
Proof. repeat split; vm_compute; reflexivity. Qed.
