(** Queries with holes for literals. *)
From Coq Require Import String.
From Verif Require Import Base Regex RegexFacts LexRules Lexer Grammar Antlr Ast Builder Parser LexSpec LexFacts LitSpec LexRuleFacts LexThms LexWs LexSub LexJoin
  GramSpec GramFacts ValueSpec ValueFacts SpellSpec BuilderFacts BuilderRules ParseSpec ParseFacts EvFacts TreeSpec TreeFacts SimFacts ReadFacts ReadQuery
  MeanSpec MeanFacts ConfigSpec ConfigFacts CoverSpec HoleSpec.
Local Open Scope Z_scope.

(** ** Tokens *)
Lemma literal_alone w x : is_literal w -> matched (w ++ x) -> x = [].
Proof.
  intros Hw (ty & r & Hin & Hl). destruct x as [|c x]; [reflexivity|exfalso].
  destruct (literal_first _ Hw) as (q & w' & E & Hq). 
  destruct (rule_cases _ _ Hin) as [H|[[_ ->]|[_ ->]]].
  - assert (Hk : forallb (fun p => forallb (avoids [34; 39]%N) (classes (snd p)))%bool plain_rules = true) by (vm_compute; reflexivity).
    rewrite forallb_forall in Hk. specialize (Hk _ H). cbn [snd] in Hk. rewrite forallb_forall in Hk.
    assert (HF : Forall (fun x => ~ In x [34; 39]%N) (w ++ c :: x)) by (eapply lang_classes; [exact Hl|]; intros k y Hkc Hy; eapply avoids_spec; eauto).
    rewrite E in HF. cbn [app] in HF. inversion HF as [|? ? Hn _]; subst. apply Hn. cbn [In]. destruct Hq; auto.
  - apply lang_QUOTED in Hl. apply (literal_prefix_free _ _ Hw) in Hl. discriminate.
  - apply lang_chr in Hl. destruct Hl as (y & Hy & _). rewrite E in Hy. destruct w'; discriminate Hy.
Qed.
Lemma literal_join w s : is_literal w -> nt (w ++ s) = mkTok REGEXP w 0 (zlen w - 1) 0 0 :: map (mv (zlen w)) (nt s) /\ (lex_errors (w ++ s) = [] <-> lex_errors s = []).
Proof.
  intros Hw. assert (Hf : first_rule w REGEXP) by (apply literal_type; exact Hw).
  assert (Hl : longest_match (w ++ s) REGEXP w).
  { split; [destruct Hw as (q & es & _ & _ & ->); discriminate|]. split; [eexists; reflexivity|]. split; [exact Hf|]. intros w' rest' He Hlt Hm.
    assert (exists x, w' = w ++ x) as (x & ->).
    { clear - He Hlt. revert w' He Hlt. induction w as [|c w IH]; intros w' He Hlt; [eexists; reflexivity|]. destruct w' as [|c' w']; [cbn in Hlt; lia|]. injection He as <- He. destruct (IH w' He ltac:(cbn in Hlt; lia)) as (x & ->). exists x. reflexivity. }
    rewrite (literal_alone _ _ Hw Hm) in Hlt. rewrite app_nil_r in Hlt. lia. }
  unfold nt at 1. unfold lex_errors. rewrite <- !has_error_lx_errors. rewrite lexemes_lexf, (lexf_token REGEXP w s 0 1 0 Hl). cbv zeta. rewrite lx_tokens_mk, has_error_mk, map_app, nt_lexf0.
  split; [cbn [ttype_eqb map app mv t_type t_text t_start t_stop]|].
  - change (ttype_eqb REGEXP Space) with false. cbn [map app mv t_type t_text t_start t_stop]. f_equal. unfold mv. cbn. f_equal; lia.
  - destruct (lexf_positions s (0 + zlen w) (fst (advance_pos 1 0 w)) (snd (advance_pos 1 0 w)) 0 1 0) as (_ & -> & _). rewrite ?lexemes_lexf. reflexivity.
Qed.
Lemma sig_mv k ts : map sig (map (mv k) ts) = map sig ts.
Proof. rewrite map_map. reflexivity. Qed.
Definition sg (s : pystr) : list (ttype * pystr) := lx_sigs (lexemes s).
Lemma sg_nt s : sg s = map sig (nt s).
Proof. unfold sg, lx_sigs, nt. rewrite sig_mv. reflexivity. Qed.
Lemma literal_safe w s : is_literal w -> starts_safe (w ++ s).
Proof. intros Hw. destruct (literal_first _ Hw) as (q & w' & -> & [-> | ->]); reflexivity. Qed.
Lemma fill_tokens : forall ws ps p, lex_errors p = [] -> Forall is_literal ws -> Forall (fun s => lex_errors s = []) ps ->
  sg (fill p ws ps) = fill (sg p) (map (fun w => [(REGEXP, w)]) ws) (map sg ps) /\ lex_errors (fill p ws ps) = [].
Proof.
  induction ws as [|w ws IH]; intros [|p' ps] p Hp Hw Hps; try (split; [reflexivity|exact Hp]).
  inversion Hw as [|? ? Hw1 Hw2]; subst. inversion Hps as [|? ? Hp1 Hp2]; subst. destruct (IH ps p' Hp1 Hw2 Hp2) as [A B].
  cbn [fill map]. destruct (nt_join p (w ++ fill p' ws ps) Hp (literal_safe _ _ Hw1)) as [N1 L1]. destruct (literal_join w (fill p' ws ps) Hw1) as [N2 L2].
  split; [|apply L1, L2; exact B]. rewrite sg_nt, N1, map_app, sig_mv, N2. cbn [map]. rewrite sig_mv, <- !sg_nt, A. reflexivity.
Qed.

(** ** Trees without their values *)
Section Blank.
  Variables (E : penv) (C : pcfg).
  Definition blank_env : penv := mkPEnv (fun _ _ => []) (env_max_digits E) (env_chr_overflows E).
  Definition blank_cfg : pcfg := mkCfg (default_identifier C) (default_operator C) (Some NFC) (enableSourceLocations C).
  Definition plain_cfg : pcfg := mkCfg (default_identifier C) (default_operator C) None (enableSourceLocations C).
  Lemma unescape_env f : forall s, unescape_loop blank_env f s = unescape_loop E f s.
  Proof.
    induction f as [|f IH]; intros s; [destruct s; reflexivity|]. destruct s as [|c s]; [reflexivity|]. cbn [unescape_loop].
    destruct (N.eqb c 92); [|rewrite IH; reflexivity]. destruct s as [|e rest]; [reflexivity|]. change (unescape_one blank_env e rest) with (unescape_one E e rest).
    destruct (unescape_one E e rest) as [[out k]|]; [|reflexivity]. cbn [rbind]. rewrite IH. reflexivity.
  Qed.
  Lemma value_env w : regexp_value blank_env plain_cfg w = regexp_value E plain_cfg w.
  Proof. unfold regexp_value. cbn [unicode_normalization_form plain_cfg]. destruct (stripQuotes w) as [r|]; [|reflexivity]. cbn [rbind]. unfold unescapeString. rewrite unescape_env. reflexivity. Qed.
  Lemma ev_regexp_env ch : ev_regexp blank_env plain_cfg ch = ev_regexp E plain_cfg ch.
  Proof.
    unfold ev_regexp. destruct (find_rule regexp ch) as [[k|r cr]|]; try reflexivity. destruct (find_rule regexp_pattern cr); [|reflexivity]. rewrite value_env. reflexivity.
  Qed.
  Lemma ev_env t : ev blank_env plain_cfg t = ev E plain_cfg t.
  Proof.
    induction t as [k|r ch IH] using ptree_ind'; [reflexivity|]. rewrite !ev_eq.
    assert (Hl : evs blank_env plain_cfg ch = evs E plain_cfg ch).
    { induction IH as [|x l Hx _ IH']; [reflexivity|]. destruct x as [k|r' cc]; cbn [evs]; rewrite IH'; [reflexivity|]. rewrite Hx. reflexivity. }
    rewrite Hl. destruct r; cbn [ev_node]; rewrite ?ev_regexp_env; reflexivity.
  Qed.
  Lemma map_regex_twice f g n : map_regex f (map_regex g n) = map_regex (fun v => f (g v)) n.
  Proof.
    induction n as [p l ch IH] using qnode_ind'. cbn [map_regex]. rewrite map_map. f_equal; [destruct p; reflexivity|]. induction IH as [|x xs Hx _ IH]; [reflexivity|]. cbn [map]. rewrite Hx, IH. reflexivity.
  Qed.
  Lemma ev_blank t : ev blank_env blank_cfg t = option_map (map_regex (fun _ => [])) (ev E C t).
  Proof.
    rewrite (ev_norm blank_env blank_cfg plain_cfg eq_refl eq_refl eq_refl), (ev_norm E C plain_cfg eq_refl eq_refl eq_refl), ev_env.
    destruct (ev E plain_cfg t); [|reflexivity]. cbn [option_map]. rewrite map_regex_twice. reflexivity.
  Qed.
End Blank.

(** ** Token sequences that differ in their literals only *)
Definition alike (a a' : ttype * pystr) : Prop :=
  fst a = fst a' /\ (fst a = REGEXP -> decodable (snd a) /\ decodable (snd a')) /\ (fst a <> REGEXP -> snd a = snd a').
Lemma nth_after {A} (l : list A) i a b : nth_error l i = Some a -> nth_error l (S i) = Some b -> exists x y, l = x ++ a :: b :: y.
Proof.
  revert l. induction i as [|i IH]; intros [|c l] Ha Hb; try discriminate Ha.
  - injection Ha as ->. destruct l as [|d l]; [discriminate Hb|]. injection Hb as ->. exists [], l. reflexivity.
  - destruct (IH l Ha Hb) as (x & y & ->). exists (c :: x), y. reflexivity.
Qed.
Lemma Forall2_nth {A B} (Q : A -> B -> Prop) l l' : Forall2 Q l l' -> forall i a b, nth_error l i = Some a -> nth_error l' i = Some b -> Q a b.
Proof. induction 1 as [|x y l l' Hx _ IH]; intros [|i] a b Ha Hb; try discriminate Ha; [injection Ha as <-; injection Hb as <-; exact Hx|exact (IH i a b Ha Hb)]. Qed.
Lemma alike_says E l l' : Forall2 alike (map sig l) (map sig l') -> Forall tok_ok l -> texts_ok E l ->
  says_if (fun w w' => decodable w /\ decodable w') E l l'.
Proof.
  intros H Ho (_ & Hf & Hi & _). split.
  - clear Hf Hi Ho. revert l' H. induction l as [|a l IH]; intros [|a' l'] H; inversion H as [|? ? ? ? (A & _) H2]; subst; [reflexivity|]. cbn [map]. rewrite (IH l' H2). cbn in A. rewrite A. reflexivity.
  - assert (K : forall i a a', nth_error l i = Some a -> nth_error l' i = Some a' -> alike (sig a) (sig a')).
    { intros i a a' Ha Ha'. exact (Forall2_nth _ _ _ H i _ _ (map_nth_error sig i l Ha) (map_nth_error sig i l' Ha')). }
    intros i a a' Ha Ha'. destruct (K i a a' Ha Ha') as (Kt & Kr & Ke). cbn [sig fst snd] in *. split; [exact Kr|]. split.
    + intros Hy. assert (Hn : t_type a <> REGEXP) by congruence. rewrite <- (Ke Hn). split; [reflexivity|]. apply Hi; [eapply nth_error_In; exact Ha|exact Hy].
    + intros b b' Hb Hb'. destruct (K (S i) b b' Hb Hb') as (Lt & _ & Le). cbn [sig fst snd] in *. split; [intros _; exact Ke|]. split.
      * intros Hy Hz. assert (Hn : t_type b <> REGEXP) by congruence. rewrite <- (Le Hn). destruct (nth_after _ _ _ _ Ha Hb) as (x & y & ->). destruct (Hf x a b y eq_refl Hy Hz) as (S & HS & _). exists S. auto.
      * intros _ Hz. assert (Hn : t_type b <> REGEXP) by congruence. rewrite <- (Le Hn). rewrite Forall_forall in Ho. destruct (Ho b (nth_error_In _ _ Hb)) as [Ht _].
        rewrite Hz in Ht. specialize (Ht ltac:(discriminate)). cbn [text_ok] in Ht. destruct (scope_spec _ Ht) as (sc & Hs & _). exists sc. auto.
Qed.
Lemma alike_outline V P q q' n : env_ok V -> lex_errors q' = [] -> Forall2 alike (sg q) (sg q') -> parse V P q = Ok n ->
  exists n', parse V P q' = Ok n' /\ outline n' = outline n.
Proof.
  intros HV He Ha Hp. destruct (parse_ok_inv V P q n HV Hp) as (m0 & [[_ Hcf] Ht] & _).
  pose (E' := blank_env (e_penv V)). pose (C' := blank_cfg (qp_cfg P)).
  assert (Ha' : Forall2 alike (map sig (tokens q)) (map sig (tokens q'))).
  { unfold tokens. rewrite !map_app. apply Forall2_app; [exact Ha|]. constructor; [|constructor]. split; [reflexivity|]. split; [discriminate|reflexivity]. }
  assert (HR : forall w w', decodable w /\ decodable w' -> decodable w' /\ regexp_value E' C' w = regexp_value E' C' w').
  { intros w w' [Hw Hw']. split; [exact Hw'|]. assert (L : forall x, decodable x -> regexp_value E' C' x = Ok []).
    { intros x (v & Hx). rewrite (regexp_value_norm E' C' (plain_cfg (qp_cfg P)) eq_refl). unfold E'. rewrite value_env. destruct (regexp_value_spec (e_penv V) (plain_cfg (qp_cfg P)) x) as [(z & _ & ->)|[Hn _]]; [|reflexivity|exfalso; apply Hn; exists v; exact Hx]. destruct Hx as (c & es & A & B & D & _). exists c, es. auto. }
    rewrite (L w Hw), (L w' Hw'). reflexivity. }
  assert (Hte : texts_ok E' (tokens q)) by exact Ht.
  pose proof (alike_says E' _ _ Ha' (tokens_ok q) Hte) as Hs.
  assert (Ht' : texts_ok E' (tokens q')) by (apply texts_ok_conds; apply (same_conds E' C' _ HR _ _ Hs); apply texts_ok_conds; exact Hte).
  assert (Hacc : accepted V q') by (split; [split; [exact He|exact (conforms_types _ _ (same_types _ _ _ _ Hs) Hcf)]|exact Ht']).
  destruct (parse_outcome V P q' HV) as [(m & _ & _ & _ & Hm)|(Hn & _)]; [|contradiction]. eexists. split; [exact Hm|].
  destruct (parse_ev V P q n HV Hp) as (t & k & Hq & Hpt & Hl & Hk & _ & ->).
  destruct (parse_ev V P q' _ HV Hm) as (t' & k' & Hq' & _ & Hl' & Hk' & _ & Heq). rewrite Heq.
  pose proof (antlr_query_shape (tokens q)) as A. rewrite (types_blank _ _ (same_types _ _ _ _ Hs)), antlr_query_shape, Hq, Hq' in A. injection A as A.
  pose proof (tree_like E' C' _ HR t t' Hpt (eq_sym A)) as B. rewrite Hl, Hl' in B. unfold E', C' in B. rewrite !ev_blank, Hk, Hk' in B. cbn [option_map] in B.
  assert (X : Some (erase (map_regex (fun _ => []) k)) = Some (erase (map_regex (fun _ => []) k'))).
  { apply B. split; [exact Hs|]. split; [split; apply texts_ok_conds; assumption|]. split; apply tokens_ok. }
  injection X as X.
  assert (M : forall b x, outline (with_locs b x) = erase (map_regex (fun _ => []) x)).
  { intros b x. unfold outline. destruct b; cbn [with_locs]; [reflexivity|]. induction x as [p l ch IH] using qnode_ind'. cbn [erase map_regex]. f_equal. rewrite !map_map. induction IH as [|y ys Hy _ IH]; [reflexivity|]. cbn [map]. rewrite Hy, IH. reflexivity. }
  rewrite !M. auto.
Qed.

(** ** Values *)
Definition texts_of (l : list (ttype * pystr)) : list pystr := map snd (filter (fun p => if ttype_eq_dec (fst p) REGEXP then true else false) l).
Definition val_of (p : payload) : list pystr := match p with PExpr _ _ _ v _ => [v] | _ => [] end.
Definition gives E C (w v : pystr) : Prop := exists x, literal_means w x /\ v = normalised E C x.
Lemma values_leaves n : values n = flat_map val_of (tree_leaves n).
Proof.
  induction n as [p l ch IH] using qnode_ind'. cbn [values tree_leaves]. rewrite flat_map_app. f_equal; [destruct p; reflexivity|].
  induction IH as [|x xs Hx _ IH]; [reflexivity|]. cbn [flat_map]. rewrite flat_map_app, Hx, IH. reflexivity.
Qed.
Lemma leaves_texts ts : flat_map (fun k : option token => match k with Some t => [t_text t] | None => [] end) (query_leaves ts) = texts_of (map sig ts).
Proof.
  induction ts as [|t ts IH]; [reflexivity|]. cbn [query_leaves map]. rewrite flat_map_app, IH. unfold texts_of. cbn [filter sig fst]. unfold leaf_at.
  destruct (ttype_eq_dec (t_type t) REGEXP) as [Hy|Hy]; [rewrite Hy; reflexivity|].
  destruct (t_type t); try congruence; try reflexivity. destruct ts as [|r ts]; [reflexivity|]. destruct (ttype_eq_dec (t_type r) R_SQUARE_BRACKET); reflexivity.
Qed.
Lemma leaves_values E C ks ps : Forall2 (same_leaf E C) ks ps ->
  Forall2 (gives E C) (flat_map (fun k : option token => match k with Some t => [t_text t] | None => [] end) ks) (flat_map val_of ps).
Proof.
  induction 1 as [|k p ks ps Hk _ IH]; [constructor|]. cbn [flat_map]. apply Forall2_app; [|exact IH].
  destruct k as [k|], p; cbn [same_leaf] in Hk; try contradiction; cbn [val_of]; repeat constructor. destruct Hk as (w & H1 & H2). exists w. auto.
Qed.
Lemma texts_fill : forall ws ps p, List.length ws = List.length ps ->
  texts_of (fill p (map (fun w => [(REGEXP, w)]) ws) ps) = fill (texts_of p) (map (fun w => [w]) ws) (map texts_of ps).
Proof.
  induction ws as [|w ws IH]; intros [|p' ps] p Hl; try discriminate Hl; [reflexivity|]. cbn [map fill]. injection Hl as Hl. rewrite <- (IH ps p' Hl).
  unfold texts_of. rewrite !filter_app, !map_app. reflexivity.
Qed.
Lemma fill_split {A B} (R : A -> B -> Prop) : forall ws ps p l, List.length ws = List.length ps -> Forall2 R (fill p (map (fun w => [w]) ws) ps) l ->
  exists f vs fs, l = fill f (map (fun v => [v]) vs) fs /\ Forall2 R p f /\ Forall2 R ws vs /\ Forall2 (Forall2 R) ps fs.
Proof.
  induction ws as [|w ws IH]; intros [|p' ps] p l Hl H; try discriminate Hl.
  - exists l, [], []. repeat split; auto. 
  - cbn [map fill] in H. apply Forall2_app_inv_l in H. destruct H as (f & r & H1 & H2 & ->). cbn [app] in H2. inversion H2 as [|? v ? r' Hv H3]; subst.
    injection Hl as Hl. destruct (IH ps p' r' Hl H3) as (f' & vs & fs & -> & A1 & A2 & A3). exists f, (v :: vs), (f' :: fs). repeat split; auto.
Qed.
Lemma gives_det E C w v v' : gives E C w v -> gives E C w v' -> v = v'.
Proof. intros (x & H & ->) (y & H' & ->). rewrite (literal_means_det _ _ _ H H'). reflexivity. Qed.
Lemma Forall2_det {A B} (R : A -> B -> Prop) : (forall a b b', R a b -> R a b' -> b = b') -> forall l m m', Forall2 R l m -> Forall2 R l m' -> m = m'.
Proof. intros D l m m' H. revert m'. induction H as [|a b l m Hab _ IH]; intros m' H'; inversion H' as [|? b' ? m'' Hab' H2]; subst; [reflexivity|]. rewrite (D _ _ _ Hab Hab'), (IH _ H2). reflexivity. Qed.
Lemma fill_alike : forall ws ws' ps p, Forall2 alike p p -> Forall (fun s => Forall2 alike s s) ps -> Forall decodable ws -> Forall decodable ws' -> List.length ws = List.length ws' ->
  Forall2 alike (fill p (map (fun w => [(REGEXP, w)]) ws) ps) (fill p (map (fun w => [(REGEXP, w)]) ws') ps).
Proof.
  induction ws as [|w ws IH]; intros [|w' ws'] ps p Hp Hps H H' Hl; try discriminate Hl; [exact Hp|]. destruct ps as [|p' ps]; [exact Hp|]. cbn [map fill].
  inversion H; subst. inversion H'; subst. inversion Hps; subst. apply Forall2_app; [exact Hp|]. cbn [app]. constructor; [|apply IH; auto].
  split; [reflexivity|]. split; [auto|]. intros X. exfalso. apply X. reflexivity.
Qed.
Lemma fill_Forall {A} (Q : A -> Prop) : forall (hs ps : list (list A)) p, List.length hs = List.length ps -> Forall Q (fill p hs ps) -> Forall Q p /\ Forall (Forall Q) ps.
Proof.
  induction hs as [|h hs IH]; intros [|p' ps] p Hl H; try discriminate Hl; [split; [exact H|constructor]|]. cbn [fill] in H. apply Forall_app in H. destruct H as [H1 H2]. apply Forall_app in H2. destruct H2 as [_ H2].
  injection Hl as Hl. destruct (IH ps p' Hl H2). split; [exact H1|]. constructor; assumption.
Qed.
Lemma alike_refl l : Forall (fun p : ttype * pystr => fst p = REGEXP -> decodable (snd p)) l -> Forall2 alike l l.
Proof. induction 1 as [|p l H _ IH]; constructor; [|exact IH]. split; [reflexivity|]. split; [intros Hp; auto|reflexivity]. Qed.
Lemma sg_decodable V P q n : env_ok V -> parse V P q = Ok n -> Forall (fun p : ttype * pystr => fst p = REGEXP -> decodable (snd p)) (sg q).
Proof.
  intros HV Hp. destruct (parse_ok_inv V P q n HV Hp) as (m0 & [_ (Hd & _)] & _). unfold sg, lx_sigs. apply Forall_forall. intros p Hin. apply in_map_iff in Hin. destruct Hin as (t & <- & Ht).
  cbn [sig fst snd]. apply Hd. unfold tokens. apply in_or_app. left. exact Ht.
Qed.
Lemma count_texts s : literal_count s = List.length (texts_of (sg s)).
Proof.
  unfold literal_count, texts_of, sg, lx_sigs. rewrite map_length. induction (lx_tokens (lexemes s)) as [|t ts IH]; [reflexivity|]. cbn [filter map sig fst]. destruct (ttype_eq_dec (t_type t) REGEXP); cbn [List.length]; rewrite ?IH; reflexivity.
Qed.
Lemma means_literal w v : literal_means w v -> is_literal w.
Proof. intros (q & es & A & B & D & _). exists q, es. auto. Qed.
Lemma quote_means c s : (c = 34 \/ c = 39)%N -> is_pystr s -> literal_means (quote_text c s) s.
Proof.
  intros Hc Hs. exists c, (map (quote_elem c) s). split; [exact Hc|]. split; [apply quote_elems_ok; assumption|]. split; [apply quote_text_lit; exact Hc|apply quote_elems_value; exact Hc].
Qed.
Lemma forall2_len {A B} {R : A -> B -> Prop} {l m} : Forall2 R l m -> List.length l = List.length m.
Proof. induction 1 as [|a b l m _ _ IH]; [reflexivity|]. cbn. rewrite IH. reflexivity. Qed.
