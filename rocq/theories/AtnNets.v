(** The networks of the generated lexer and parser are the grammars. *)
From Verif Require Import Base Regex LexRules Lexer Grammar Antlr GramSpec LexSpec GenParser Atn AtnFacts.
Local Open Scope Z_scope.

(** ** Symbols *)
Definition inb (l : list (Z * Z)) (x : Z) : bool := existsb (fun r => (fst r <=? x) && (x <=? snd r)) l.
Lemma inb_ok l x : inb l x = true <-> within_set l x.
Proof.
  unfold inb, within_set. rewrite existsb_exists. split.
  - intros ((a & b) & Hin & H). apply andb_prop in H. exists a, b. cbn in H. split; [exact Hin|lia].
  - intros (a & b & Hin & H). exists (a, b). split; [exact Hin|]. cbn. lia.
Qed.

(** ** The parser's network *)
Definition all_types : list ttype :=
  [EOF; L_PAREN; R_PAREN; L_SQUARE_BRACKET; R_SQUARE_BRACKET; OR; AND; NOT; FWD_SLASH; L_CURLY_BRACKET; R_CURLY_BRACKET; Q_ONE_OR_MORE; Q_ZERO_OR_MORE;
   Q_ZERO_OR_ONE; Q_COMMA; OPERATOR_EQ; OPERATOR_NE; COLON; WITHIN; SIMPLE_WITHIN_SCOPE; REGEXP_FLAGS; IDENTIFIER; INTEGER; REGEXP; QUOTED_STRING; Space].
Lemma all_types_all t : In t all_types.
Proof. destruct t; cbn; tauto. Qed.
Definition symb (lab : label) (x : Z) : option bool :=
  match lab with
  | Atom y => Some (x =? y)
  | Range a b => Some ((a <=? x) && (x <=? b))%bool
  | SetT s => Some (inb s x)
  | _ => None
  end.
Lemma symb_ok A lab x b : symb lab x = Some b -> (sym A lab x <-> b = true).
Proof.
  destruct lab; cbn; intros H; try discriminate; injection H as <-.
  - rewrite andb_true_iff. lia.
  - lia.
  - symmetry. apply inb_ok.
Qed.
Definition psee (l : list ttype) (t : ptree) : Prop := match t with Leaf k => In (t_type k) l | Node _ _ => False end.
Definition psame (l : list ttype) (lab : label) : bool :=
  forallb (fun t => match symb lab (tnum t) with Some b => Bool.eqb (tt_in t l) b | None => false end) all_types.
Fixpoint gof (e : ebnf) : gx (list ttype) :=
  match e with
  | Tk l => GTk l
  | NT r => GNT (rule_num r)
  | Sq a b => GSq (gof a) (gof b)
  | Al a b => GAl (gof a) (gof b)
  | Op e => GAl (gof e) GEps
  | Pl e => GSq (gof e) (GSt (gof e))
  | St e => GSt (gof e)
  end.
Definition pbody (r : Z) : option (gx (list ttype)) := option_map (fun r => gof (body r)) (rule_named r).
Lemma tt_in_iff t l : tt_in t l = true <-> In t l.
Proof.
  unfold tt_in. rewrite existsb_exists. split.
  - intros (x & Hin & H). unfold ttype_eqb in H. destruct (ttype_eq_dec t x) as [->|]; [exact Hin|discriminate].
  - intros Hin. exists t. split; [exact Hin|]. unfold ttype_eqb. destruct (ttype_eq_dec t t); congruence.
Qed.
Lemma psame_ok A l lab : psame l lab = true -> issym lab /\ forall t, psee l t <-> see_tree A lab t.
Proof.
  unfold psame. rewrite forallb_forall. intros H. split.
  - specialize (H _ (all_types_all EOF)). destruct lab; cbn in *; easy.
  - intros [k|]; cbn; [|tauto]. specialize (H _ (all_types_all (t_type k))). destruct (symb lab (tnum (t_type k))) as [b|] eqn:Hb; [|discriminate].
    rewrite (symb_ok A _ _ _ Hb), <- tt_in_iff. apply Bool.eqb_prop in H. rewrite H. tauto.
Qed.
Lemma see_tree_sym A lab t : see_tree A lab t -> issym lab.
Proof. destruct t; cbn; [|tauto]. destruct lab; cbn; auto. Qed.
Lemma rule_num_named r : rule_named (rule_num r) = Some r.
Proof. destruct r; reflexivity. Qed.
Lemma rule_named_num n r : rule_named n = Some r -> n = rule_num r.
Proof.
  unfold rule_named. destruct (n <? 0) eqn:Hn; [discriminate|]. intros H. rewrite <- (Z2Nat.id n) by lia. apply Z.ltb_ge in Hn. clear Hn. generalize dependent (Z.to_nat n). intros m H.
  do 23 (destruct m as [|m]; [injection H as <-; reflexivity|]). destruct m; discriminate.
Qed.
Notation pgl := (gl wrap_tree psee pbody).
Lemma derives_gl e x : derives e x -> pgl (gof e) x.
Proof.
  induction 1 as [l t Hin|r ch _ IH|a b x y _ IH1 _ IH2|a b x _ IH|a b x _ IH|e|e x _ IH|e x y _ IH1 _ IH2|e|e x y _ IH1 _ IH2]; cbn [gof].
  - constructor. exact Hin.
  - assert (Hw : [Node r ch] = wrap_tree (rule_num r) ch) by (unfold wrap_tree; rewrite rule_num_named; reflexivity). rewrite Hw.
    econstructor; [|exact IH]. unfold pbody. rewrite rule_num_named. reflexivity.
  - constructor; assumption.
  - apply g_al1; exact IH.
  - apply g_al2; exact IH.
  - apply g_al2; constructor.
  - apply g_al1; exact IH.
  - constructor; assumption.
  - constructor.
  - apply g_st1; assumption.
Qed.
Lemma gl_derives g x : pgl g x -> forall e, g = gof e -> derives e x.
Proof.
  induction 1 as [|l i Hi|r b y Hb Hd IH|a b x y Ha IH1 Hb IH2|a b x Ha IH|a b x Hb IH|g|g x y Hx IH1 Hy IH2]; intros e0 He.
  - destruct e0; discriminate.
  - destruct e0; try discriminate. injection He as <-. destruct i as [k|]; [|destruct Hi]. constructor. exact Hi.
  - destruct e0; try discriminate. injection He as ->. unfold pbody in Hb. unfold wrap_tree. rewrite rule_num_named in *. injection Hb as <-. constructor. apply IH. reflexivity.
  - destruct e0 as [| | | | |e|]; try discriminate; injection He as -> Hg.
    + constructor; auto.
    + constructor; [auto|apply IH2; subst; reflexivity].
  - destruct e0; try discriminate; injection He as -> Hg; [apply d_al1|apply d_op1]; auto.
  - destruct e0 as [| | | |e| |]; try discriminate; injection He as Hg ->; [apply d_al2; auto|]. inversion Hb; subst. constructor.
  - destruct e0; try discriminate. constructor.
  - destruct e0; try discriminate. injection He as ->. apply d_st1; auto.
Qed.

(** The decoded table, checked. *)
Notation pcheck := (check_rule parser_atn pbody psame false 60).
Lemma parser_stopsb : stops_out parser_atn = true.
Proof. vm_compute. reflexivity. Qed.
Lemma parser_checked : forallb (fun r => pcheck (gof (body r)) (start_of parser_atn (rule_num r))) rule_names = true.
Proof. vm_compute. reflexivity. Qed.
Lemma parser_stops s : stop_state parser_atn s -> out parser_atn s = [].
Proof. exact (stops_out_ok parser_atn parser_stopsb s). Qed.
Notation pfrag := (frag parser_atn pbody psame false).
Lemma parser_frag r : exists v, pfrag (gof (body r)) (start_of parser_atn (rule_num r)) v /\ stop_state parser_atn v.
Proof.
  pose proof (proj1 (forallb_forall _ _) parser_checked) as H. cbv beta in H.
  apply (check_rule_ok parser_atn pbody psame false 60). apply (H r). destruct r; cbn; tauto.
Qed.
Lemma parser_bodies r b : pbody r = Some b -> exists v, pfrag b (start_of parser_atn r) v /\ stop_state parser_atn v.
Proof.
  unfold pbody. destruct (rule_named r) as [r'|] eqn:Hr; [|discriminate]. intros H. injection H as <-. rewrite (rule_named_num _ _ Hr). apply parser_frag.
Qed.
Theorem parser_net r ch : net_tree parser_atn r ch <-> derives (body r) ch.
Proof.
  destruct (parser_frag r) as (v & Hf & Hv).
  pose proof (frag_lang parser_atn (see_tree parser_atn) wrap_tree psee pbody psame false (psame_ok parser_atn) (see_tree_sym parser_atn)
    (fun H => match Bool.diff_false_true H with end) parser_stops parser_bodies _ _ _ Hf Hv ch) as H.
  unfold net_tree. rewrite <- H. split; [intros Hg; eapply gl_derives; [exact Hg|reflexivity]|apply derives_gl].
Qed.

(** ** The lexer's network *)
(** Symbols of the lexer grammar: a character set, or a lexer action. *)
Inductive lsym := LCls (c : cls) | LAct (i : Z).
Definition lsee (l : lsym) (x : lexitem) : Prop :=
  match l, x with
  | LCls c, Char ch => in_cls c ch = true
  | LAct i, Act j => j = i
  | _, _ => False
  end.
Definition enum (a b : N) : list N := map (fun k => (a + N.of_nat k)%N) (seq 0 (N.to_nat (b - a + 1))).
Lemma enum_in a b x : (a <= x <= b)%N -> In x (enum a b).
Proof. intros H. unfold enum. apply in_map_iff. exists (N.to_nat (x - a)). split; [lia|]. apply in_seq. lia. Qed.
(** [rs] within the set [s], and back. *)
Definition sub_set (rs : list (N * N)) (s : list (Z * Z)) : bool :=
  forallb (fun r => forallb (fun x => inb s (Z.of_N x)) (enum (fst r) (snd r))) rs.
Definition sup_set (rs : list (N * N)) (s : list (Z * Z)) : bool :=
  forallb (fun r => (0 <=? fst r) && forallb (fun x => in_ranges rs x) (enum (Z.to_N (fst r)) (Z.to_N (snd r)))) s.
Lemma same_set rs s : sub_set rs s = true -> sup_set rs s = true -> forall x, in_ranges rs x = true <-> within_set s (Z.of_N x).
Proof.
  unfold sub_set, sup_set. rewrite !forallb_forall. intros H1 H2 x. rewrite <- inb_ok. split.
  - unfold in_ranges. rewrite existsb_exists. intros (r & Hin & Hx). specialize (H1 _ Hin). rewrite forallb_forall in H1. apply H1. apply enum_in. apply andb_prop in Hx. destruct Hx as [Ha Hb]. apply N.leb_le in Ha, Hb. split; assumption.
  - unfold inb. rewrite existsb_exists. intros (r & Hin & Hx). specialize (H2 _ Hin). apply andb_prop in H2. destruct H2 as [H0 H2]. rewrite forallb_forall in H2. apply H2. apply enum_in. apply andb_prop in Hx. destruct Hx as [Ha Hb]. apply Z.leb_le in Ha, Hb, H0. lia.
Qed.
Definition lsame (l : lsym) (lab : label) : bool :=
  match l, lab with
  | LAct i, ActionT _ j => i =? j
  | LCls c, Atom x => negb (c_neg c) && sub_set (c_ranges c) [(x, x)] && sup_set (c_ranges c) [(x, x)]
  | LCls c, SetT s => negb (c_neg c) && sub_set (c_ranges c) s && sup_set (c_ranges c) s
  | LCls c, NotSetT s => c_neg c && sub_set (c_ranges c) s && sup_set (c_ranges c) s
  | _, _ => false
  end.
Lemma lsame_ok A l lab : a_type A = 0 -> lsame l lab = true -> issym lab /\ forall i, lsee l i <-> see_char A lab i.
Proof.
  intros HA H. split; [destruct l, lab; cbn in *; easy|]. intros i. destruct l as [c|n], lab as [|a b|q r pr|y|r j|s|s]; try discriminate; cbn [lsame] in H.
  - rewrite !andb_true_iff in H. destruct H as ((Hn & H1) & H2). apply negb_true_iff in Hn. destruct i as [ch|k]; cbn [lsee see_char sym]; [|tauto].
    unfold in_cls. rewrite Hn, (same_set _ _ H1 H2). unfold within_set. split; [intros (a & b & [Hab|[]] & Hx); injection Hab as <- <-; lia|intros ->; eexists _, _; split; [left; reflexivity|lia]].
  - rewrite !andb_true_iff in H. destruct H as ((Hn & H1) & H2). apply negb_true_iff in Hn. destruct i as [ch|k]; cbn [lsee see_char sym]; [|tauto].
    unfold in_cls. rewrite Hn, (same_set _ _ H1 H2). tauto.
  - rewrite !andb_true_iff in H. destruct H as ((Hn & H1) & H2). destruct i as [ch|k]; cbn [lsee see_char sym]; [|tauto].
    unfold in_cls. rewrite Hn, HA, <- (same_set _ _ H1 H2). cbn [Z.eqb]. destruct (in_ranges (c_ranges c) ch); cbn; split.
    + discriminate.
    + intros [H _]. destruct H. reflexivity.
    + intros H. apply N.leb_le in H. split; [discriminate|lia].
    + intros [_ H]. apply N.leb_le. lia.
  - apply Z.eqb_eq in H. subst. destruct i; cbn; tauto.
Qed.
Lemma see_char_sym A lab i : see_char A lab i -> issym lab.
Proof. destruct i, lab; cbn; easy. Qed.
Fixpoint lof (r : regex) : gx lsym :=
  match r with
  | Emp => GTk (LCls (mkCls false []))
  | Eps => GEps
  | Chr c => GTk (LCls c)
  | Cat a b => GSq (lof a) (lof b)
  | Bar a b => GAl (lof a) (lof b)
  | Rep a => GSt (lof a)
  end.
Definition nowrap (r : Z) (y : list lexitem) : list lexitem := y.
Notation lgl := (gl nowrap lsee (fun _ => None)).
Lemma lang_gl r w : lang r w -> lgl (lof r) (map Char w).
Proof.
  induction 1 as [|c x Hx|r s x y _ IH1 _ IH2|r s x _ IH|r s x _ IH|r|r x y _ IH1 _ IH2]; cbn [lof map]; rewrite ?map_app.
  - constructor.
  - constructor. exact Hx.
  - constructor; assumption.
  - apply g_al1; exact IH.
  - apply g_al2; exact IH.
  - constructor.
  - apply g_st1; assumption.
Qed.
Lemma gl_lang g x : lgl g x -> forall r, g = lof r -> exists w, x = map Char w /\ lang r w.
Proof.
  induction 1 as [|l i Hi|r b y Hb Hd IH|a b x y Ha IH1 Hb IH2|a b x Ha IH|a b x Hb IH|g|g x y Hx IH1 Hy IH2]; intros e0 He.
  - destruct e0; try discriminate. exists []. split; [reflexivity|constructor].
  - destruct e0; try discriminate; injection He as ->; destruct i as [c0|]; try contradiction; cbn in Hi; [discriminate|]. exists [c0]. split; [reflexivity|constructor; exact Hi].
  - discriminate.
  - destruct e0; try discriminate. injection He as -> ->. destruct (IH1 _ eq_refl) as (w1 & -> & H1). destruct (IH2 _ eq_refl) as (w2 & -> & H2).
    exists (w1 ++ w2). split; [rewrite map_app; reflexivity|constructor; assumption].
  - destruct e0; try discriminate. injection He as -> ->. destruct (IH _ eq_refl) as (w1 & -> & H1). exists w1. split; [reflexivity|apply l_barl; exact H1].
  - destruct e0; try discriminate. injection He as -> ->. destruct (IH _ eq_refl) as (w1 & -> & H1). exists w1. split; [reflexivity|apply l_barr; exact H1].
  - destruct e0; try discriminate. exists []. split; [reflexivity|constructor].
  - destruct e0; try discriminate. injection He as ->. destruct (IH1 _ eq_refl) as (w1 & -> & H1). destruct (IH2 (Rep e0) eq_refl) as (w2 & -> & H2).
    exists (w1 ++ w2). split; [rewrite map_app; reflexivity|apply l_rep1; assumption].
Qed.
(** [Space] carries the action number 0. *)
Definition lex_gx (p : ttype * regex) : gx lsym :=
  match fst p with Space => GSq (lof (snd p)) (GTk (LAct 0)) | _ => lof (snd p) end.
Notation lcheck := (check_rule lexer_atn (fun _ => None) lsame true 60).
Fixpoint all2 {X Y} (f : X -> Y -> bool) (a : list X) (b : list Y) : bool :=
  match a, b with [], [] => true | x :: a', y :: b' => f x y && all2 f a' b' | _, _ => false end.
Lemma all2_ok {X Y} (f : X -> Y -> bool) a : forall b, all2 f a b = true -> Forall2 (fun x y => f x y = true) a b.
Proof. induction a as [|x a IH]; intros [|y b] H; try discriminate; constructor; cbn in H; apply andb_prop in H; [apply H|apply IH; apply H]. Qed.
Lemma lexer_stopsb : stops_out lexer_atn = true.
Proof. vm_compute. reflexivity. Qed.
Lemma lexer_type : a_type lexer_atn = 0.
Proof. vm_compute. reflexivity. Qed.
Lemma lexer_checked : all2 (fun p t => (fst t =? tnum (fst p)) && lcheck (lex_gx p) (snd t)) lex_rules (token_alts lexer_atn) = true.
Proof. vm_compute. reflexivity. Qed.
Lemma lexer_stops s : stop_state lexer_atn s -> out lexer_atn s = [].
Proof. exact (stops_out_ok lexer_atn lexer_stopsb s). Qed.
Notation lfrag := (frag lexer_atn (fun _ => None) lsame true).
Lemma lex_gl p x : lgl (lex_gx p) x <-> exists w, lang (snd p) w /\ x = map Char w ++ (match fst p with Space => [Act 0] | _ => [] end).
Proof.
  assert (Ho : lgl (lof (snd p)) x <-> exists w, lang (snd p) w /\ x = map Char w ++ []).
  { split.
    - intros H. destruct (gl_lang _ _ H _ eq_refl) as (w & -> & Hw). exists w. rewrite app_nil_r. auto.
    - intros (w & Hw & ->). rewrite app_nil_r. apply lang_gl. exact Hw. }
  unfold lex_gx. destruct (fst p); try exact Ho. split.
  - intros H. inversion H as [| | |? ? x1 x2 H1 H2| | | |]; subst. destruct (gl_lang _ _ H1 _ eq_refl) as (w & -> & Hw). inversion H2 as [|l i Hi| | | | | |]; subst.
    destruct i as [|j]; [destruct Hi|]. cbn in Hi. subst j. eauto.
  - intros (w & Hw & ->). constructor; [apply lang_gl; exact Hw|]. constructor. reflexivity.
Qed.
Lemma chars_map w y : chars_of (map Char w ++ y) = w ++ chars_of y.
Proof. induction w as [|c w IH]; [reflexivity|]. cbn. f_equal. exact IH. Qed.
Lemma acts_map w y : acts_of (map Char w ++ y) = acts_of y.
Proof. induction w as [|c w IH]; [reflexivity|]. cbn. exact IH. Qed.
(** The action with number 0 is SKIP (6). *)
Lemma lexer_actions : a_actions lexer_atn = [(6, 0, 0)].
Proof. vm_compute. reflexivity. Qed.
Lemma Forall2_imp {X Y} (P Q : X -> Y -> Prop) a b : (forall x y, P x y -> Q x y) -> Forall2 P a b -> Forall2 Q a b.
Proof. intros H. induction 1; constructor; auto. Qed.
Theorem lexer_net : Forall2 (fun p t => fst t = tnum (fst p) /\ forall w acts, net_text lexer_atn (snd t) w acts <->
    lang (snd p) w /\ acts = match fst p with Space => [(6, 0, 0)] | _ => [] end) lex_rules (token_alts lexer_atn).
Proof.
  pose proof (all2_ok _ _ _ lexer_checked) as H. generalize dependent (token_alts lexer_atn). intros alts H.
  eapply Forall2_imp; [|exact H]. clear H. intros p t Hpt. cbv beta in Hpt. apply andb_prop in Hpt. destruct Hpt as [Ht Hc]. split; [apply Z.eqb_eq; exact Ht|].
  apply check_rule_ok in Hc. destruct Hc as (v & Hf & Hv). intros w acts.
  pose proof (frag_lang lexer_atn (see_char lexer_atn) nowrap lsee (fun _ => None) lsame true (fun l lab => lsame_ok lexer_atn l lab lexer_type) (see_char_sym lexer_atn)
    (fun _ _ _ => eq_refl) lexer_stops (fun r b (E : None = Some b) => match eq_ind None (fun o => match o with None => True | Some _ => False end) Logic.I _ E with end) _ _ _ Hf Hv) as H.
  unfold net_text. split.
  - intros (x & e & Hp & He & <- & ->). assert (Hg : lgl (lex_gx p) x) by (apply H; exists e; auto). apply lex_gl in Hg. destruct Hg as (w & Hw & ->).
    rewrite chars_map, acts_map. destruct (fst p); cbn [chars_of acts_of flat_map map]; rewrite ?app_nil_r; (split; [exact Hw|]); rewrite ?lexer_actions; reflexivity.
  - intros [Hw ->]. set (y := match fst p with Space => [Act 0] | _ => [] end).
    assert (Hg : lgl (lex_gx p) (map Char w ++ y)) by (apply lex_gl; exists w; auto). apply H in Hg. destruct Hg as (e & Hp & He).
    exists (map Char w ++ y), e. split; [exact Hp|]. split; [exact He|]. rewrite chars_map, acts_map. subst y. destruct (fst p); cbn [chars_of acts_of flat_map map]; rewrite ?app_nil_r; (split; [reflexivity|]); rewrite ?lexer_actions; reflexivity.
Qed.
