(** Bounds on the depth of trees. *)
From Coq Require Import String.
From Verif Require Import Base LexRules Lexer Grammar Antlr Ast Builder LitSpec ValueSpec GramSpec GramFacts SpellSpec TreeSpec
  LevelSpec ReadSpec ParseSpec ParseFacts BuilderFacts EvFacts SimFacts DepthSpec.

Lemma qheight_eq p l ch : qheight (QN p l ch) = S (list_max (map qheight ch)).
Proof. reflexivity. Qed.
Lemma qheight_le p l ch k : Forall (fun n => qheight n <= k)%nat ch -> (qheight (QN p l ch) <= S k)%nat.
Proof.
  intros H. rewrite qheight_eq. apply le_n_S, list_max_le. induction H; cbn [map]; constructor; assumption.
Qed.
Lemma qheight_ge p l ch c : In c ch -> (S (qheight c) <= qheight (QN p l ch))%nat.
Proof.
  intros H. rewrite qheight_eq. apply le_n_S. pose proof (proj1 (list_max_le (map qheight ch) _) (le_n _)) as F.
  rewrite Forall_forall in F. apply F. apply in_map. exact H.
Qed.
Lemma qheight_erase n : qheight (erase n) = qheight n.
Proof.
  induction n as [p l ch IH] using qnode_ind'. cbn [erase]. rewrite !qheight_eq, map_map. f_equal. f_equal.
  apply map_ext_in. intros c Hc. rewrite Forall_forall in IH. apply IH. exact Hc.
Qed.
Lemma qheight_pos n : (1 <= qheight n)%nat.
Proof. destruct n. rewrite qheight_eq. lia. Qed.

(** The bracket depth over a balanced stretch. *)
Definition walk (ts : list token) (N : nat) : Prop :=
  forall d r, nesting_at d (ts ++ r) = Nat.max (d + N) (nesting_at d r).
Lemma nesting_ge d r : (d <= nesting_at d r)%nat.
Proof. destruct r; cbn [nesting_at]; lia. Qed.
Lemma walk_nesting ts N : walk ts N -> nesting ts = N.
Proof. intros H. unfold nesting. rewrite <- (app_nil_r ts), H. cbn [nesting_at]. lia. Qed.
Lemma walk_app a b N M : walk a N -> walk b M -> walk (a ++ b) (Nat.max N M).
Proof. intros Ha Hb d r. rewrite <- app_assoc, Ha, Hb. pose proof (nesting_ge d r). lia. Qed.
Definition inert (t : token) : Prop := ~ In (t_type t) [L_PAREN; L_SQUARE_BRACKET; R_PAREN; R_SQUARE_BRACKET].
Lemma inert_depth t d : inert t -> depth_after d t = d.
Proof. unfold inert, depth_after. destruct (t_type t); intros H; try reflexivity; exfalso; apply H; cbn [In]; tauto. Qed.
Lemma walk_nil : walk [] 0.
Proof. intros d r. cbn [app]. pose proof (nesting_ge d r). lia. Qed.
Lemma walk_cons t ts N : inert t -> walk ts N -> walk (t :: ts) N.
Proof.
  intros Ht H d r. cbn [app nesting_at]. rewrite (inert_depth t d Ht), H. lia.
Qed.
Lemma walk_inert ts : Forall inert ts -> walk ts 0.
Proof. induction 1; [apply walk_nil|apply walk_cons; assumption]. Qed.
Lemma is_inert ty k : is_tok ty k -> ~ In ty [L_PAREN; L_SQUARE_BRACKET; R_PAREN; R_SQUARE_BRACKET] -> inert k.
Proof. unfold is_tok, inert. intros ->. auto. Qed.
Lemma walk_bracket l ts r rest N M : (is_tok L_PAREN l \/ is_tok L_SQUARE_BRACKET l) -> (is_tok R_PAREN r \/ is_tok R_SQUARE_BRACKET r) ->
  walk ts N -> walk rest M -> walk (l :: ts ++ r :: rest) (Nat.max (S N) M).
Proof.
  intros Hl Hr H HM d x. cbn [app nesting_at]. assert (El : depth_after d l = S d).
  { unfold depth_after, is_tok in *. destruct Hl as [-> | ->]; reflexivity. }
  assert (Er : forall d, depth_after (S d) r = d).
  { intros e. unfold depth_after, is_tok in *. destruct Hr as [-> | ->]; reflexivity. }
  rewrite El, <- app_assoc, H. cbn [app nesting_at]. rewrite Er, HM. pose proof (nesting_ge d x). lia.
Qed.

Lemma neg_app a b : negations (a ++ b) = (negations a + negations b)%nat.
Proof. unfold negations. rewrite filter_app, app_length. reflexivity. Qed.
Lemma neg_cons t a : negations (t :: a) = ((if ttype_eqb NOT (t_type t) then 1 else 0) + negations a)%nat.
Proof. unfold negations. cbn [filter]. destruct (ttype_eqb NOT (t_type t)); reflexivity. Qed.

Lemma attr_inert ta q i : sp_attr ta q i -> Forall inert ta.
Proof.
  assert (Hn : forall t, name_tok t -> inert t).
  { unfold name_tok, inert. intros t H H'. cbn [In] in *. destruct (t_type t); intuition discriminate. }
  intros H. inversion H; subst; repeat constructor; auto. eapply is_inert; [eassumption|]. cbn [In]. intuition discriminate.
Qed.
Lemma op_inert o op : sp_op o op -> inert o.
Proof. intros H. inversion H; subst; (eapply is_inert; [eassumption|]); cbn [In]; intuition discriminate. Qed.
Lemma regex_inert E C tr v fl : sp_regex E C tr v fl -> Forall inert tr.
Proof.
  intros H. inversion H; subst; repeat constructor; (eapply is_inert; [eassumption|]); cbn [In]; intuition discriminate.
Qed.
Lemma quantified_inert tq mn mx : quantified tq mn mx -> Forall inert tq.
Proof.
  assert (I : forall n t, int_tok n t -> inert t).
  { intros n t [H _]. eapply is_inert; [exact H|]. cbn [In]. intuition discriminate. }
  assert (K : forall ty t, is_tok ty t -> In ty [Q_ZERO_OR_MORE; Q_ONE_OR_MORE; Q_ZERO_OR_ONE; L_CURLY_BRACKET; R_CURLY_BRACKET; Q_COMMA] -> inert t).
  { intros ty t H D. eapply is_inert; [exact H|]. cbn [In] in *. intros D'.
    repeat match goal with D : _ \/ _ |- _ => destruct D as [D|D] end; try contradiction; subst ty; discriminate. }
  intros H. inversion H; subst; repeat apply Forall_cons; try apply Forall_nil;
    first [eapply I; eassumption|eapply K; [eassumption|cbn [In]; tauto]].
Qed.
Lemma basic_walk E C ta q i o op tr v fl : sp_attr ta q i -> sp_op o op -> sp_regex E C tr v fl -> walk (ta ++ o :: tr) 0.
Proof.
  intros A B D. apply walk_inert, Forall_app. split; [eapply attr_inert; exact A|].
  constructor; [eapply op_inert; exact B|eapply regex_inert; exact D].
Qed.

Section Read.
  Variables (E : penv) (C : pcfg).
  (** Some stretch of depth [N] whose trees are at most [3 N + c + negations] and at least [N + 1] high. *)
  Definition deep (c : nat) (ts : list token) (ns : list qnode) : Prop :=
    exists N, walk ts N /\ Forall (fun n => qheight n <= 3 * N + c + negations ts)%nat ns.
  Lemma deep_one c p l ts ns : deep c ts ns -> deep (S c) ts [QN p l ns].
  Proof.
    intros (N & W & F). exists N. split; [exact W|]. constructor; [|constructor].
    replace (3 * N + S c + negations ts)%nat with (S (3 * N + c + negations ts)) by lia. apply qheight_le. exact F.
  Qed.
  Lemma deep_le c c' ts ns : (c <= c')%nat -> deep c ts ns -> deep c' ts ns.
  Proof. intros L (N & W & F). exists N. split; [exact W|]. eapply Forall_impl; [|exact F]. cbn beta. intros; lia. Qed.
  Lemma deep_cat c a b ns ms : deep c a ns -> deep c b ms -> deep c (a ++ b) (ns ++ ms).
  Proof.
    intros (N & W & F) (M & W' & F'). exists (Nat.max N M). split; [apply walk_app; assumption|]. rewrite neg_app.
    apply Forall_app. split; [eapply Forall_impl; [|exact F]|eapply Forall_impl; [|exact F']]; cbn beta; intros; lia.
  Qed.
  Lemma deep_sep c a k b ns ms : deep c a ns -> inert k -> deep c b ms -> deep c (a ++ k :: b) (ns ++ ms).
  Proof.
    intros H Hk (M & W & F). apply deep_cat; [exact H|]. exists M. split; [apply walk_cons; assumption|].
    eapply Forall_impl; [|exact F]. cbn beta. intros n L. rewrite neg_cons. lia.
  Qed.
  Lemma deep_bracket c p loc l ts r rest ns : deep c ts ns -> (is_tok L_PAREN l \/ is_tok L_SQUARE_BRACKET l) ->
    (is_tok R_PAREN r \/ is_tok R_SQUARE_BRACKET r) -> Forall inert rest -> deep (c - 2) (l :: ts ++ r :: rest) [QN p loc ns].
  Proof.
    intros (N & W & F) Hl Hr Hi. exists (S N). split.
    - replace (S N) with (Nat.max (S N) 0) by lia. apply walk_bracket; [exact Hl|exact Hr|exact W|apply walk_inert; exact Hi].
    - constructor; [|constructor].
      assert (HN : (negations ts <= negations (l :: ts ++ r :: rest))%nat) by (rewrite neg_cons, neg_app; lia).
      etransitivity; [apply qheight_le; eapply Forall_impl; [|exact F]; cbn beta; intros n L; exact L|]. lia.
  Qed.
  Lemma sep_inert ty k : is_tok ty k -> ty = OR \/ ty = AND \/ ty = NOT \/ ty = WITHIN \/ ty = SIMPLE_WITHIN_SCOPE \/ ty = EOF -> inert k.
  Proof. intros H D. eapply is_inert; [exact H|]. cbn [In]. decompose [or] D; subst ty; intuition discriminate. Qed.

  Lemma level_deep :
    (forall ts n, rd_level E C ts n -> deep 3 ts [n]) /\ (forall ts ns, rd_terms E C ts ns -> deep 2 ts ns) /\
    (forall ts n, rd_term E C ts n -> deep 2 ts [n]) /\ (forall ts ns, rd_factors E C ts ns -> deep 1 ts ns) /\
    (forall ts n, rd_factor E C ts n -> deep 1 ts [n]).
  Proof.
    apply rd_level_mutind; intros.
    - eapply deep_le; [|eassumption]. lia.
    - apply deep_one. assumption.
    - assumption.
    - apply (deep_sep 2 _ _ _ [n] ns); [assumption|eapply sep_inert; [eassumption|tauto]|assumption].
    - eapply deep_le; [|eassumption]. lia.
    - apply deep_one. assumption.
    - assumption.
    - apply (deep_sep 1 _ _ _ [n] ns); [assumption|eapply sep_inert; [eassumption|tauto]|assumption].
    - exists 0%nat. split; [eapply basic_walk; eassumption|]. constructor; [|constructor]. cbn. lia.
    - apply (deep_bracket 3 PExprGroup _ l ts r [] [n]); [assumption|left; assumption|left; assumption|constructor].
    - match goal with H : deep 1 ts [n] |- _ => destruct H as (N & W & F) end. inversion F; subst.
      exists N. split; [apply walk_cons; [eapply sep_inert; [eassumption|tauto]|exact W]|]. constructor; [|constructor].
      rewrite neg_cons. match goal with H : is_tok NOT k |- _ => rewrite H end. cbn [ttype_eqb].
      etransitivity; [apply qheight_le; constructor; [eassumption|constructor]|]. cbn. lia.
  Qed.
  Lemma item_deep :
    (forall ts n, rd_item E C ts n -> deep 2 ts [n]) /\ (forall ts ns, rd_seq E C ts ns -> deep 2 ts ns) /\
    (forall ts n, rd_operand E C ts n -> deep 3 ts [n]) /\ (forall ts ns, rd_operands E C ts ns -> deep 3 ts ns) /\
    (forall ts n, rd_content E C ts n -> deep 4 ts [n]).
  Proof.
    apply rd_item_mutind; intros.
    - exists 0%nat. split.
      + apply walk_inert, Forall_app. split; [eapply regex_inert; eassumption|eapply quantified_inert; eassumption].
      + constructor; [|constructor]. cbn. lia.
    - exists 1%nat. split.
      + apply (walk_bracket l [] r tq 0 0); [right; assumption|right; assumption|apply walk_nil|apply walk_inert; eapply quantified_inert; eassumption].
      + constructor; [|constructor]. cbn. lia.
    - apply (deep_le 1); [lia|]. apply (deep_bracket 3 _ _ l te r tq [n]);
        [apply (proj1 level_deep); assumption|right; assumption|right; assumption|eapply quantified_inert; eassumption].
    - apply (deep_bracket 4 _ _ l tc r tq [n]); [assumption|left; assumption|left; assumption|eapply quantified_inert; eassumption].
    - assumption.
    - apply (deep_cat 2 _ _ [n] ns); assumption.
    - eapply deep_le; [|eassumption]. lia.
    - apply deep_one. assumption.
    - assumption.
    - apply (deep_sep 3 _ _ _ [n] ns); [assumption|eapply sep_inert; [eassumption|tauto]|assumption].
    - apply (deep_le 3); [lia|]. apply deep_one. assumption.
    - apply deep_one. assumption.
  Qed.
  Lemma main_deep ts n : rd_main E C ts n -> deep 4 ts [n].
  Proof.
    destruct item_deep as (A & B & _ & D & _). intros H. inversion H; subst.
    - apply (deep_le 2); [lia|]. apply A. assumption.
    - apply (deep_le 3); [lia|]. apply deep_one, B. assumption.
    - apply deep_one, D. assumption.
  Qed.
  Lemma query_deep ts n : rd_query E C ts n -> deep 5 ts [n].
  Proof.
    intros H. inversion H; subst.
    - apply (deep_le 4); [lia|]. apply (deep_cat 4 _ _ [n] []); [apply main_deep; assumption|]. exists 0%nat. split; [|constructor].
      apply walk_inert. constructor; [eapply sep_inert; [eassumption|tauto]|constructor].
    - assert (K : deep 4 [w; k; e] [QN (PSimpleWithin sc) (span [k]) []]).
      { exists 0%nat. split.
        - apply walk_inert. repeat constructor; (eapply sep_inert; [eassumption|tauto]).
        - constructor; [cbn; lia|constructor]. }
      apply deep_one. apply (deep_cat 4 _ _ [n0] [_]); [apply main_deep; assumption|exact K].
  Qed.
  Lemma query_depth ts n : rd_query E C ts n -> (qheight n <= 3 * nesting ts + negations ts + 5)%nat.
  Proof. intros H. destruct (query_deep ts n H) as (N & W & F). rewrite (walk_nesting _ _ W). inversion F; subst. lia. Qed.
End Read.

Lemma brackets_eq p l ch : brackets (QN p l ch) = ((if bracketed p then 1 else 0) + list_max (map brackets ch))%nat.
Proof. reflexivity. Qed.
Lemma brackets_erase n : brackets (erase n) = brackets n.
Proof.
  induction n as [p l ch IH] using qnode_ind'. cbn [erase]. rewrite !brackets_eq, map_map. f_equal. f_equal.
  apply map_ext_in. intros c Hc. rewrite Forall_forall in IH. apply IH. exact Hc.
Qed.
Lemma list_max_app a b : list_max (a ++ b) = Nat.max (list_max a) (list_max b).
Proof. induction a as [|x a IH]; [reflexivity|]. cbn [app list_max fold_right]. change (fold_right Nat.max 0 ?l)%nat with (list_max l). rewrite IH. lia. Qed.

Section Spell.
  Variables (E : penv) (C : pcfg).
  (** The brackets of the tokens and the bracketed nodes of the trees (a literal segment has no brackets). *)
  Definition nest (b : nat) (ts : list token) (ns : list qnode) : Prop :=
    exists N, walk ts N /\ (N <= list_max (map brackets ns) <= N + b)%nat.
  Lemma nest_same b p l ts ns : bracketed p = false -> nest b ts ns -> nest b ts [QN p l ns].
  Proof. intros Hp (N & W & L). exists N. split; [exact W|]. cbn [map list_max fold_right]. rewrite brackets_eq, Hp. lia. Qed.
  Lemma nest_cat b a c ns ms : nest b a ns -> nest b c ms -> nest b (a ++ c) (ns ++ ms).
  Proof.
    intros (N & W & F) (M & W' & F'). exists (Nat.max N M). split; [apply walk_app; assumption|]. rewrite map_app, list_max_app. lia.
  Qed.
  Lemma nest_sep b a k c ns ms : nest b a ns -> inert k -> nest b c ms -> nest b (a ++ k :: c) (ns ++ ms).
  Proof. intros H Hk (M & W & F). apply nest_cat; [exact H|]. exists M. split; [apply walk_cons; assumption|exact F]. Qed.
  Lemma nest_bracket b p loc l ts r rest ns : bracketed p = true -> nest b ts ns -> (is_tok L_PAREN l \/ is_tok L_SQUARE_BRACKET l) ->
    (is_tok R_PAREN r \/ is_tok R_SQUARE_BRACKET r) -> Forall inert rest -> nest b (l :: ts ++ r :: rest) [QN p loc ns].
  Proof.
    intros Hp (N & W & F) Hl Hr Hi. exists (S N). split.
    - replace (S N) with (Nat.max (S N) 0) by lia. apply walk_bracket; [exact Hl|exact Hr|exact W|apply walk_inert; exact Hi].
    - cbn [map list_max fold_right]. rewrite brackets_eq, Hp. lia.
  Qed.
  Lemma nest_le b ts ns : nest 0 ts ns -> nest b ts ns.
  Proof. intros (N & W & F). exists N. split; [exact W|lia]. Qed.

  Lemma expr_nest : (forall ts n, sp_expr E C ts n -> nest 0 ts [n]) /\
    (forall sep ts ns, sp_exprs E C sep ts ns -> sep = AND \/ sep = OR -> nest 0 ts ns).
  Proof.
    apply sp_expr_mutind; intros.
    - exists 0%nat. split; [eapply basic_walk; eassumption|]. cbn. lia.
    - apply (nest_bracket 0 PExprGroup _ l ts r [] [n]); [reflexivity|assumption|left; assumption|left; assumption|constructor].
    - match goal with H : nest 0 ts [n] |- _ => destruct H as (N & W & F) end. exists N.
      split; [apply walk_cons; [eapply sep_inert; [eassumption|tauto]|exact W]|]. cbn [map list_max fold_right] in *. rewrite brackets_eq. cbn. lia.
    - apply nest_same; [reflexivity|auto].
    - apply nest_same; [reflexivity|auto].
    - auto.
    - apply (nest_sep 0 _ _ _ [n] ns); [assumption|eapply sep_inert; [eassumption|tauto]|auto].
  Qed.
  Lemma item_nest :
    (forall ts n, sp_item E C ts n -> nest 1 ts [n]) /\ (forall ts ns, sp_seq E C ts ns -> nest 1 ts ns) /\
    (forall ts ns, sp_alts E C ts ns -> nest 1 ts ns) /\ (forall ts n, sp_operand E C ts n -> nest 1 ts [n]) /\
    (forall ts n, sp_content E C ts n -> nest 1 ts [n]).
  Proof.
    apply sp_item_mutind; intros.
    - exists 0%nat. split; [|cbn; lia].
      apply walk_inert, Forall_app. split; [eapply regex_inert; eassumption|eapply quantified_inert; eassumption].
    - apply nest_le. apply (nest_bracket 0 _ _ l [] r tq [_]);
        [reflexivity|exists 0%nat; split; [apply walk_nil|cbn; lia]|right; assumption|right; assumption|eapply quantified_inert; eassumption].
    - apply nest_le. apply (nest_bracket 0 _ _ l te r tq [n]);
        [reflexivity|apply (proj1 expr_nest); assumption|right; assumption|right; assumption|eapply quantified_inert; eassumption].
    - apply (nest_bracket 1 _ _ l tc r tq [n]); [reflexivity|assumption|left; assumption|left; assumption|eapply quantified_inert; eassumption].
    - assumption.
    - apply (nest_cat 1 _ _ [n] ns); assumption.
    - assumption.
    - apply (nest_sep 1 _ _ _ [n] ns); [assumption|eapply sep_inert; [eassumption|tauto]|assumption].
    - assumption.
    - apply nest_same; [reflexivity|assumption].
    - apply nest_same; [reflexivity|assumption].
    - apply nest_same; [reflexivity|assumption].
  Qed.
  Lemma main_nest ts n : sp_main E C ts n -> nest 1 ts [n].
  Proof. destruct item_nest as (A & _ & _ & _ & B). intros H. inversion H; subst; auto. Qed.
  Lemma query_nest ts n : sp_query E C ts n -> (nesting ts <= brackets n <= nesting ts + 1)%nat.
  Proof.
    intros H. assert (K : nest 1 ts [n]).
    { inversion H; subst.
      - apply (nest_cat 1 _ _ [n] []); [apply main_nest; assumption|]. exists 0%nat. split; [|cbn; lia].
        apply walk_inert. constructor; [eapply sep_inert; [eassumption|tauto]|constructor].
      - apply nest_same; [reflexivity|]. apply (nest_cat 1 _ _ [n0] [_]); [apply main_nest; assumption|].
        exists 0%nat. split; [|cbn; lia]. apply walk_inert. repeat constructor; (eapply sep_inert; [eassumption|tauto]). }
    destruct K as (N & W & F). rewrite (walk_nesting _ _ W). cbn [map list_max fold_right] in F. lia.
  Qed.

  (** Heights against the number of tokens. *)
  Notation len := (@List.length token).
  Definition small (c : nat) (ts : list token) (ns : list qnode) : Prop := Forall (fun n => qheight n <= len ts + c)%nat ns.
  Lemma small_one c p l ts ns : small c ts ns -> small (S c) ts [QN p l ns].
  Proof. intros F. constructor; [|constructor]. replace (len ts + S c)%nat with (S (len ts + c)) by lia. apply qheight_le. exact F. Qed.
  Lemma small_more c ts ts' ns : (len ts <= len ts')%nat -> small c ts ns -> small c ts' ns.
  Proof. intros L. apply Forall_impl. intros; lia. Qed.
  Lemma small_cat c a b ns ms : small c a ns -> small c b ms -> small c (a ++ b) (ns ++ ms).
  Proof. intros H K. apply Forall_app. split; [eapply small_more; [|exact H]|eapply small_more; [|exact K]]; rewrite app_length; lia. Qed.
  Lemma regex_len tr v fl : sp_regex E C tr v fl -> (1 <= len tr)%nat.
  Proof. intros H. inversion H; cbn; lia. Qed.
  Lemma expr_len : (forall ts n, sp_expr E C ts n -> 3 <= len ts /\ qheight n + 2 <= len ts)%nat /\
    (forall sep ts ns, sp_exprs E C sep ts ns ->
       (3 <= len ts)%nat /\ Forall (fun n => qheight n + 2 <= len ts)%nat ns /\ (2 <= List.length ns -> Forall (fun n => qheight n + 3 <= len ts)%nat ns)%nat).
  Proof.
    apply sp_expr_mutind; intros.
    - assert (1 <= len ta)%nat by (match goal with H : sp_attr _ _ _ |- _ => inversion H; cbn; lia end).
      pose proof (regex_len tr v fl H1). rewrite app_length. cbn. lia.
    - destruct H1 as [A B]. cbn [List.length]. rewrite app_length. cbn [List.length]. rewrite qheight_eq. cbn. lia.
    - destruct H1 as [A B]. cbn [List.length]. rewrite qheight_eq. cbn. lia.
    - destruct H0 as (A & _ & B). split; [exact A|].
      pose proof (qheight_le PAnd (span ts) ns (len ts - 3)) as K. enough (Forall (fun n => qheight n <= len ts - 3)%nat ns) by (specialize (K H0); lia).
      eapply Forall_impl; [|exact (B H1)]. cbn beta. intros; lia.
    - destruct H0 as (A & _ & B). split; [exact A|].
      pose proof (qheight_le POr (span ts) ns (len ts - 3)) as K. enough (Forall (fun n => qheight n <= len ts - 3)%nat ns) by (specialize (K H0); lia).
      eapply Forall_impl; [|exact (B H1)]. cbn beta. intros; lia.
    - destruct H0 as [A B]. split; [exact A|]. split; [repeat constructor; exact B|cbn; lia].
    - destruct H0 as [A B]. destruct H3 as (A' & B' & _). rewrite app_length. cbn [List.length]. split; [lia|].
      assert (K : Forall (fun n => (qheight n + 3 <= len ts + S (len ts'))%nat) (n :: ns)).
      { constructor; [lia|]. eapply Forall_impl; [|exact B']. cbn beta. intros; lia. }
      split; [|intros _; exact K]. eapply Forall_impl; [|exact K]. cbn beta. intros; lia.
  Qed.
  Lemma item_ne ts n : sp_item E C ts n -> (1 <= len ts)%nat.
  Proof. intros H. inversion H; subst; try (cbn; lia). rewrite app_length. pose proof (regex_len _ _ _ H0). lia. Qed.
  Lemma seq_ne ts ns : sp_seq E C ts ns -> (1 <= len ts)%nat.
  Proof. intros H. inversion H; subst; [eapply item_ne; eassumption|]. rewrite app_length. pose proof (item_ne _ _ H0). lia. Qed.
  Lemma operand_ne ts n : sp_operand E C ts n -> (1 <= len ts)%nat.
  Proof. intros H. inversion H; subst; [eapply item_ne; eassumption|eapply seq_ne; eassumption]. Qed.
  Lemma alts_ne ts ns : sp_alts E C ts ns -> (1 <= len ts)%nat.
  Proof. intros H. inversion H; subst; [eapply operand_ne; eassumption|]. rewrite app_length. cbn. lia. Qed.
  Lemma item_len :
    (forall ts n, sp_item E C ts n -> small 1 ts [n]) /\ (forall ts ns, sp_seq E C ts ns -> small 1 ts ns) /\
    (forall ts ns, sp_alts E C ts ns -> small 2 ts ns /\ (2 <= List.length ns -> small 1 ts ns)%nat) /\
    (forall ts n, sp_operand E C ts n -> small 2 ts [n]) /\ (forall ts n, sp_content E C ts n -> small 2 ts [n]).
  Proof.
    apply sp_item_mutind; intros.
    - pose proof (regex_len _ _ _ H). constructor; [|constructor]. rewrite app_length. cbn. lia.
    - constructor; [|constructor]. cbn. lia.
    - destruct (proj1 expr_len _ _ H0) as [A B]. constructor; [|constructor]. cbn [List.length]. rewrite app_length, qheight_eq. cbn. lia.
    - inversion H1; subst. constructor; [|constructor]. cbn [List.length]. rewrite app_length, qheight_eq. cbn. lia.
    - assumption.
    - apply (small_cat 1 _ _ [n] ns); assumption.
    - split; [assumption|cbn; lia].
    - destruct H3 as [A _]. inversion H0; subst.
      pose proof (alts_ne _ _ H2) as L.
      assert (K : small 1 (ts ++ k :: ts') (n :: ns)).
      { constructor; [rewrite app_length; cbn [List.length]; lia|]. eapply Forall_impl; [|exact A]. cbn beta. intros m Hm. rewrite app_length; cbn [List.length]. lia. }
      split; [|intros _; exact K]. eapply Forall_impl; [|exact K]. cbn beta. intros; lia.
    - eapply Forall_impl; [|eassumption]. cbn beta. intros; lia.
    - apply small_one. assumption.
    - apply small_one. assumption.
    - apply small_one. apply H0. assumption.
  Qed.
  Lemma query_len ts n : sp_query E C ts n -> (qheight n <= len ts + 1)%nat.
  Proof.
    destruct item_len as (A & _ & _ & _ & B).
    assert (M : forall ts n, sp_main E C ts n -> (qheight n <= len ts + 2)%nat).
    { intros x m H. inversion H; subst; [specialize (A _ _ ltac:(eassumption))|specialize (B _ _ ltac:(eassumption))]; unfold small in *;
        match goal with F : Forall _ [m] |- _ => inversion F; subst end; lia. }
    intros H. inversion H; subst.
    - specialize (M _ _ ltac:(eassumption)). rewrite app_length. cbn. lia.
    - specialize (M _ _ ltac:(eassumption)). rewrite app_length, qheight_eq. cbn. lia.
  Qed.
End Spell.

(** Parse trees. *)
Lemma pheight_eq r ch : pheight (Node r ch) = S (list_max (map pheight ch)).
Proof. reflexivity. Qed.
Lemma pheight_le r ch k : Forall (fun t => pheight t <= k)%nat ch -> (pheight (Node r ch) <= S k)%nat.
Proof. intros H. rewrite pheight_eq. apply le_n_S, list_max_le. induction H; cbn [map]; constructor; assumption. Qed.
Lemma pheight_ge r ch c : In c ch -> (S (pheight c) <= pheight (Node r ch))%nat.
Proof.
  intros H. rewrite pheight_eq. apply le_n_S. pose proof (proj1 (list_max_le (map pheight ch) _) (le_n _)) as F.
  rewrite Forall_forall in F. apply F. apply in_map. exact H.
Qed.

Fixpoint least (e : ebnf) : nat :=
  match e with
  | Tk _ | NT _ => 1
  | Sq a b => least a + least b
  | Al a b => Nat.min (least a) (least b)
  | Op _ | St _ => 0
  | Pl e => least e
  end.
Notation toks x := (List.length (flat_map leaves x)).
Lemma derives_least e x : derives e x -> (least e <= toks x)%nat.
Proof.
  induction 1 as [l t Hin|r ch Hd IH|a b x y _ IH1 _ IH2|a b x _ IH|a b x _ IH|e|e x _ IH|e x y _ IH1 _ IH2|e|e x y _ IH1 _ IH2];
    cbn [least]; rewrite ?flat_map_app, ?app_length; try lia; try (cbn; lia).
  cbn [flat_map leaves]. rewrite app_nil_r. assert (1 <= least (body r))%nat by (destruct r; cbn; lia). lia.
Qed.
(** The rules occurring in a right-hand side, each with the least number of tokens next to it. *)
Fixpoint places (e : ebnf) : list (rule * nat) :=
  match e with
  | Tk _ => []
  | NT r => [(r, 0%nat)]
  | Sq a b => map (fun p => (fst p, (snd p + least b)%nat)) (places a) ++ map (fun p => (fst p, (snd p + least a)%nat)) (places b)
  | Al a b => places a ++ places b
  | Op e | St e | Pl e => places e
  end.
Lemma derives_places e x : derives e x -> forall r ch, In (Node r ch) x ->
  exists k, In (r, k) (places e) /\ (List.length (leaves (Node r ch)) + k <= toks x)%nat.
Proof.
  induction 1 as [l t Hin|r ch Hd IH|a b x y H1 IH1 H2 IH2|a b x _ IH|a b x _ IH|e|e x _ IH|e x y _ IH1 _ IH2|e|e x y _ IH1 _ IH2];
    intros r0 ch0 Hin0; cbn [places]; rewrite ?flat_map_app, ?app_length.
  - destruct Hin0 as [E|[]]. discriminate.
  - destruct Hin0 as [E|[]]. injection E as -> ->. exists 0%nat. split; [left; reflexivity|]. cbn [flat_map]. rewrite app_nil_r. lia.
  - apply in_app_or in Hin0. pose proof (derives_least _ _ H1). pose proof (derives_least _ _ H2). destruct Hin0 as [Hin0|Hin0].
    + destruct (IH1 _ _ Hin0) as (k & A & B). exists (k + least b)%nat. split; [|lia]. apply in_or_app. left.
      apply (in_map (fun p => (fst p, (snd p + least b)%nat)) _ _ A).
    + destruct (IH2 _ _ Hin0) as (k & A & B). exists (k + least a)%nat. split; [|lia]. apply in_or_app. right.
      apply (in_map (fun p => (fst p, (snd p + least a)%nat)) _ _ A).
  - destruct (IH _ _ Hin0) as (k & A & B). exists k. split; [apply in_or_app; auto|exact B].
  - destruct (IH _ _ Hin0) as (k & A & B). exists k. split; [apply in_or_app; auto|exact B].
  - destruct Hin0.
  - apply IH. exact Hin0.
  - apply in_app_or in Hin0. destruct Hin0 as [Hin0|Hin0]; [destruct (IH1 _ _ Hin0) as (k & A & B)|destruct (IH2 _ _ Hin0) as (k & A & B)]; exists k; (split; [exact A|lia]).
  - destruct Hin0.
  - apply in_app_or in Hin0. destruct Hin0 as [Hin0|Hin0]; [destruct (IH1 _ _ Hin0) as (k & A & B)|destruct (IH2 _ _ Hin0) as (k & A & B)]; exists k; (split; [exact A|lia]).
Qed.
Definition slack (r : rule) : nat :=
  match r with
  | query => 5 | main_query => 5 | query_sequence => 4 | query_disjunction => 3 | query_group => 3 | query_simple => 3
  | query_implicit => 2 | regexp | attribute | expression => 1 | within_part => 1
  | _ => 0
  end.
Lemma slack_ok : forallb (fun r => (1 <=? least (body r) + slack r)%nat && forallb (fun p => (S (slack (fst p)) <=? slack r + snd p)%nat) (places (body r))) all_rules = true.
Proof. vm_compute. reflexivity. Qed.
Lemma tree_len t : forall r ch, t = Node r ch -> (exists e, derives e [t]) -> (pheight t <= List.length (leaves t) + slack r)%nat.
Proof.
  induction t as [k|r ch IH] using ptree_ind'; intros r0 ch0 Ht [e He]; [discriminate|]. injection Ht as <- <-.
  assert (Hd : derives (body r) ch).
  { clear - He. remember [Node r ch] as x. revert Heqx. induction He; intros; subst; try discriminate; eauto.
    - injection Heqx as -> ->. assumption.
    - destruct x as [|? [|]]; [exact (IHHe2 Heqx)|injection Heqx as -> ->; auto|discriminate].
    - destruct x as [|? [|]]; [exact (IHHe2 Heqx)|injection Heqx as -> ->; auto|discriminate].
    - destruct x as [|? [|]]; [exact (IHHe2 Heqx)|injection Heqx as -> ->; auto|discriminate]. }
  pose proof slack_ok as K. rewrite forallb_forall in K. specialize (K r (all_rules_all r)). apply andb_true_iff in K. destruct K as [K0 K].
  apply Nat.leb_le in K0. rewrite forallb_forall in K. pose proof (derives_least _ _ Hd) as L. cbn [leaves].
  assert (P : (S (List.length (flat_map leaves ch) + slack r - 1) = List.length (flat_map leaves ch) + slack r)%nat) by lia.
  rewrite <- P. apply pheight_le. rewrite Forall_forall in IH. apply Forall_forall. intros c Hc. destruct c as [k|r' ch']; [cbn; lia|].
  destruct (derives_places _ _ Hd r' ch' Hc) as (k & A & B). specialize (K _ A). apply Nat.leb_le in K. cbn [fst snd] in K.
  specialize (IH _ Hc r' ch' eq_refl).
  assert (X : exists e', derives e' [Node r' ch']).
  { clear - Hd Hc. induction Hd; rewrite ?in_app_iff in *; try (destruct Hc; fail); eauto.
    - destruct Hc as [E|[]]. discriminate.
    - destruct Hc as [E|[]]. injection E as -> ->. exists (NT r'). constructor. assumption.
    - destruct Hc as [Hc|Hc]; eauto.
    - destruct Hc as [Hc|Hc]; eauto.
    - destruct Hc as [Hc|Hc]; eauto. }
  specialize (IH X). lia.
Qed.
Lemma query_tree_len t : parse_tree query t -> (pheight t <= List.length (leaves t) + 5)%nat.
Proof. intros H. inversion H; subst. apply (tree_len _ query ch eq_refl). exists (NT query). exact H. Qed.

Definition vrank (r : rule) : nat := match r with regexp | attribute => 2 | _ => 1 end.
Lemma vrank_ok : forallb (fun r => negb (valueless r) || forallb (fun p => (valueless (fst p) && (S (vrank (fst p)) <=? vrank r)%nat)%bool) (places (body r))) all_rules = true.
Proof. vm_compute. reflexivity. Qed.
Definition well (t : ptree) : Prop := match t with Leaf _ => True | Node r ch => derives (body r) ch end.
Lemma derives_well e x : derives e x -> Forall well x.
Proof.
  induction 1; try (apply Forall_app; split); try assumption; try constructor; try constructor; assumption.
Qed.
Lemma valueless_height t : forall r ch, t = Node r ch -> valueless r = true -> well t -> (pheight t <= vrank r)%nat.
Proof.
  induction t as [k|r ch IH] using ptree_ind'; intros r0 ch0 Ht Hv Hw; [discriminate|]. injection Ht as <- <-. cbn [well] in Hw.
  pose proof vrank_ok as K. rewrite forallb_forall in K. specialize (K r (all_rules_all r)). rewrite Hv in K. cbn [negb orb] in K. rewrite forallb_forall in K.
  assert (P : vrank r = S (vrank r - 1)) by (destruct r; reflexivity). rewrite P. apply pheight_le. rewrite Forall_forall in IH. apply Forall_forall. intros c Hc.
  destruct c as [k|r' ch']; [cbn; lia|]. destruct (derives_places _ _ Hw r' ch' Hc) as (k & A & _). specialize (K _ A). apply andb_true_iff in K. destruct K as [K1 K2]. cbn [fst] in *.
  apply Nat.leb_le in K2. pose proof (derives_well _ _ Hw) as W. rewrite Forall_forall in W. specialize (IH _ Hc r' ch' eq_refl K1 (W _ Hc)). lia.
Qed.

Section Wrap.
  Variables (E : penv) (C : pcfg).
  Definition wrap (r : rule) : nat := match r with expression | main_query | within_part => 1 | query_segment | query => 2 | _ => 0 end.
  Definition cost (r : rule) : nat := if valueless r then 2 else wrap r.
  Definition fits (t : ptree) : Prop :=
    match t with
    | Leaf _ => True
    | Node r _ => valueless r = false -> forall n, ev E C t = Some n -> (pheight t <= 3 * qheight n + wrap r)%nat /\ (qheight n <= pheight t)%nat
    end.
  Lemma evs_fits ch ns r k : derives (body r) ch -> forallb (fun p => (cost (fst p) <=? k)%nat) (places (body r)) = true ->
    Forall fits ch -> evs E C ch = Some ns -> Forall (fun c => pheight c <= 3 * list_max (map qheight ns) + k)%nat ch.
  Proof.
    intros Hd Hk Hf. assert (Hc : Forall (fun c => match c with Leaf _ => True | Node r' _ => (cost r' <= k)%nat end) ch).
    { apply Forall_forall. intros c Hc. destruct c as [|r' ch']; [exact I|]. destruct (derives_places _ _ Hd r' ch' Hc) as (j & A & _).
      rewrite forallb_forall in Hk. specialize (Hk _ A). apply Nat.leb_le in Hk. exact Hk. }
    pose proof (derives_well _ _ Hd) as Hw. clear Hd Hk. revert ns. induction Hf as [|c ch Fc _ IH]; intros ns Hns; [constructor|].
    inversion Hc; subst. inversion Hw; subst. destruct c as [t|r' ch'].
    - constructor; [cbn; lia|]. apply IH; assumption.
    - cbn [evs] in Hns. destruct (valueless r') eqn:Hv.
      + constructor; [|apply IH; assumption]. pose proof (valueless_height _ _ _ eq_refl Hv ltac:(eassumption)). unfold cost in *. rewrite Hv in *.
        assert (vrank r' <= 2)%nat by (destruct r'; cbn; lia). lia.
      + destruct (ev E C (Node r' ch')) as [n|] eqn:Hn; [|discriminate]. destruct (evs E C ch) as [ms|] eqn:Hms; [|discriminate]. injection Hns as <-.
        cbn [map list_max fold_right]. change (fold_right Nat.max 0%nat ?l) with (list_max l). cbn [fits] in Fc. destruct (Fc Hv n Hn) as [F _]. unfold cost in *. rewrite Hv in *.
        constructor; [lia|]. eapply Forall_impl; [|apply IH; [assumption|assumption|reflexivity]]. cbn beta. intros; lia.
  Qed.
  Lemma evs_low ch ns r : Forall fits ch -> evs E C ch = Some ns -> Forall (fun n => S (qheight n) <= pheight (Node r ch))%nat ns.
  Proof.
    intros Hf Hns. enough (K : Forall (fun n => exists c, In c ch /\ (qheight n <= pheight c)%nat) ns).
    { eapply Forall_impl; [|exact K]. cbn beta. intros n (c & Hc & L). pose proof (pheight_ge r ch c Hc). lia. }
    revert ns Hns. induction Hf as [|c ch Fc _ IH]; intros ns Hns; [injection Hns as <-; constructor|].
    assert (Up : forall ms, Forall (fun n => exists c, In c ch /\ (qheight n <= pheight c)%nat) ms -> Forall (fun n => exists c0, In c0 (c :: ch) /\ (qheight n <= pheight c0)%nat) ms).
    { intros ms. apply Forall_impl. intros n (c0 & A & B). exists c0. split; [right; exact A|exact B]. }
    destruct c as [t|r' ch']; [apply Up, IH; exact Hns|]. cbn [evs] in Hns. destruct (valueless r') eqn:Hv; [apply Up, IH; exact Hns|].
    destruct (ev E C (Node r' ch')) as [n|] eqn:Hn; [|discriminate]. destruct (evs E C ch) as [ms|] eqn:Hms; [|discriminate]. injection Hns as <-.
    constructor; [exists (Node r' ch'); split; [left; reflexivity|apply (Fc Hv n Hn)]|]. apply Up, IH. reflexivity.
  Qed.
  Lemma evs_none r ch : derives (body r) ch -> forallb (fun p => valueless (fst p)) (places (body r)) = true -> evs E C ch = Some [].
  Proof.
    intros Hd Hk. assert (Hc : Forall (fun c => match c with Leaf _ => True | Node r' _ => valueless r' = true end) ch).
    { apply Forall_forall. intros c Hc. destruct c as [|r' ch']; [exact I|]. destruct (derives_places _ _ Hd r' ch' Hc) as (j & A & _).
      rewrite forallb_forall in Hk. exact (Hk _ A). }
    clear Hd Hk. induction Hc as [|c ch Hc _ IH]; [reflexivity|]. destruct c as [t|r' ch']; cbn [evs]; [exact IH|]. rewrite Hc. exact IH.
  Qed.
  Lemma push_fits r ch ns p l : derives (body r) ch -> Forall fits ch -> forallb (fun p => (cost (fst p) <=? 2)%nat) (places (body r)) = true ->
    evs E C ch = Some ns -> (pheight (Node r ch) <= 3 * qheight (QN p l ns))%nat /\ (qheight (QN p l ns) <= pheight (Node r ch))%nat.
  Proof.
    intros Hd Hf Hk Hns. split.
    - rewrite qheight_eq. pose proof (evs_fits ch ns r 2 Hd Hk Hf Hns) as F.
      replace (3 * S (list_max (map qheight ns)))%nat with (S (3 * list_max (map qheight ns) + 2)) by lia. apply pheight_le. exact F.
    - pose proof (evs_low ch ns r Hf Hns) as F. rewrite qheight_eq. assert (G : Forall (fun n => qheight n <= pheight (Node r ch) - 1)%nat ns).
      { eapply Forall_impl; [|exact F]. cbn beta. intros; lia. }
      assert (list_max (map qheight ns) <= pheight (Node r ch) - 1)%nat by (apply list_max_le, Forall_map; exact G).
      rewrite pheight_eq in *. lia.
  Qed.
  Lemma pass_fits r ch n k : derives (body r) ch -> Forall fits ch -> forallb (fun p => (cost (fst p) <=? k)%nat) (places (body r)) = true ->
    evs E C ch = Some [n] -> (pheight (Node r ch) <= 3 * qheight n + S k)%nat /\ (qheight n <= pheight (Node r ch))%nat.
  Proof.
    intros Hd Hf Hk Hns. split.
    - pose proof (evs_fits ch [n] r k Hd Hk Hf Hns) as F. cbn [map list_max fold_right] in F. rewrite Nat.max_0_r in F.
      replace (3 * qheight n + S k)%nat with (S (3 * qheight n + k)) by lia. apply pheight_le. exact F.
    - pose proof (evs_low ch [n] r Hf Hns) as F. inversion F; subst. lia.
  Qed.
  Lemma all_fit t : well t -> (forall r ch, t = Node r ch -> derives (body r) ch) -> fits t.
  Proof.
    induction t as [k|r ch IH] using ptree_ind'; intros Hw _; [exact I|]. cbn [well] in Hw. intros Hv n Hn.
    assert (Hf : Forall fits ch).
    { pose proof (derives_well _ _ Hw) as W. rewrite Forall_forall in IH, W. apply Forall_forall. intros c Hc. apply IH; [exact Hc|exact (W c Hc)|].
      intros r' ch' ->. exact (W _ Hc). }
    rewrite ev_eq in Hn. destruct r; try discriminate Hv; cbn [ev_node wrap] in *; rewrite ?Nat.add_0_r.
    - destruct (find_rule within_part ch), (evs E C ch) as [[|a [|b [|]]]|] eqn:He; try discriminate; injection Hn as <-.
      + destruct (push_fits query ch [a; b] PWithWithin (fromContext (Node query ch)) Hw Hf eq_refl He). split; lia.
      + exact (pass_fits query ch a 1 Hw Hf eq_refl He).
    - destruct (evs E C ch) as [[|a [|]]|] eqn:He; try discriminate; injection Hn as <-. exact (pass_fits _ ch a 0 Hw Hf eq_refl He).
    - destruct (evs E C ch) as [ns|] eqn:He; [|discriminate]; injection Hn as <-. exact (push_fits _ ch ns _ _ Hw Hf eq_refl He).
    - destruct (evs E C ch) as [ns|] eqn:He; [|discriminate]; injection Hn as <-. exact (push_fits _ ch ns _ _ Hw Hf eq_refl He).
    - destruct (evs E C ch) as [[|a [|]]|] eqn:He; try discriminate. destruct (repetition E ch) as [[mn mx]|]; try discriminate. injection Hn as <-. exact (push_fits _ ch [a] _ _ Hw Hf eq_refl He).
    - destruct (evs E C ch) as [[|a [|]]|] eqn:He; try discriminate. destruct (repetition E ch) as [[mn mx]|]; try discriminate. injection Hn as <-. exact (push_fits _ ch [a] _ _ Hw Hf eq_refl He).
    - destruct (ev_regexp E C ch) as [[v fl]|]; [|discriminate]. injection Hn as <-. exact (push_fits _ ch [] _ _ Hw Hf eq_refl (evs_none _ _ Hw eq_refl)).
    - destruct (List.length ch =? 2)%nat eqn:Hl.
      + injection Hn as <-. assert (He : evs E C ch = Some []).
        { inversion Hw; subst. match goal with H : derives (Sq _ _) _ |- _ => inversion H; subst end.
          match goal with H : derives (Op _) ?x |- _ => inversion H; subst end.
          - repeat match goal with H : derives (Tk _) _ |- _ => inversion H; subst; clear H end. reflexivity.
          - repeat match goal with H : derives (Tk _) _ |- _ => inversion H; subst; clear H | H : derives (NT _) _ |- _ => inversion H; subst; clear H end. discriminate Hl. }
        destruct (push_fits _ ch [] PWildcard (fromContext (Node query_segment ch)) Hw Hf eq_refl He). split; lia.
      + destruct (evs E C ch) as [[|a [|]]|] eqn:He; try discriminate. injection Hn as <-. exact (pass_fits _ ch a 1 Hw Hf eq_refl He).
    - destruct (evs E C ch) as [[|a [|]]|] eqn:He; try discriminate; injection Hn as <-. exact (pass_fits _ ch a 0 Hw Hf eq_refl He).
    - destruct ch as [|c0 ch0]; [discriminate|]. destruct (within_scope (get_text c0)); try discriminate. injection Hn as <-. exact (push_fits _ _ [] _ _ Hw Hf eq_refl (evs_none _ _ Hw eq_refl)).
    - destruct (evs E C ch) as [[|a [|]]|] eqn:He; try discriminate; injection Hn as <-. exact (pass_fits _ ch a 0 Hw Hf eq_refl He).
    - destruct (evs E C ch) as [ns|] eqn:He; [|discriminate]; injection Hn as <-. exact (push_fits _ ch ns _ _ Hw Hf eq_refl He).
    - destruct (evs E C ch) as [ns|] eqn:He; [|discriminate]; injection Hn as <-. exact (push_fits _ ch ns _ _ Hw Hf eq_refl He).
    - destruct (evs E C ch) as [[|a [|]]|] eqn:He; try discriminate; injection Hn as <-. exact (push_fits _ ch [a] _ _ Hw Hf eq_refl He).
    - destruct (evs E C ch) as [[|a [|]]|] eqn:He; try discriminate; injection Hn as <-. exact (push_fits _ ch [a] _ _ Hw Hf eq_refl He).
    - destruct (ev_attribute ch) as [[q i]|]; [|discriminate]. destruct (ev_regexp E C ch) as [[v fl]|]; [|discriminate]. injection Hn as <-. exact (push_fits _ ch [] _ _ Hw Hf eq_refl (evs_none _ _ Hw eq_refl)).
  Qed.
  Lemma query_fits t n : parse_tree query t -> ev E C t = Some n -> (qheight n <= pheight t <= 3 * qheight n + 2)%nat.
  Proof.
    intros H Hn. inversion H; subst. assert (W : well (Node query ch)) by assumption.
    destruct (all_fit (Node query ch) W ltac:(intros r0 ch0 X; injection X as <- <-; exact W) eq_refl n Hn) as [A B]. cbn [wrap] in A. split; assumption.
  Qed.
End Wrap.

(** Each [!] is a negation in the tree. *)
Lemma count_eq p l ch : count_nots (QN p l ch) = ((match p with PNot => 1 | _ => 0 end) + list_sum (map count_nots ch))%nat.
Proof. reflexivity. Qed.
Lemma count_erase n : count_nots (erase n) = count_nots n.
Proof.
  induction n as [p l ch IH] using qnode_ind'. cbn [erase]. rewrite !count_eq, map_map. f_equal. f_equal.
  apply map_ext_in. intros c Hc. rewrite Forall_forall in IH. apply IH. exact Hc.
Qed.
Lemma neg_is ty k : is_tok ty k -> ty <> NOT -> ttype_eqb NOT (t_type k) = false.
Proof. unfold is_tok. intros ->. destruct ty; congruence || reflexivity. Qed.
Lemma neg_none ts : Forall (fun t => ttype_eqb NOT (t_type t) = false) ts -> negations ts = 0%nat.
Proof. induction 1 as [|t ts H _ IH]; [reflexivity|]. rewrite neg_cons, H, IH. reflexivity. Qed.
Section Count.
  Variables (E : penv) (C : pcfg).
  Ltac none := apply neg_none; repeat apply Forall_cons; try apply Forall_nil;
    try (eapply neg_is; [eassumption|discriminate]).
  Lemma name_neg t : name_tok t -> ttype_eqb NOT (t_type t) = false.
  Proof. unfold name_tok. cbn [In]. intros [<-|[<-|[<-|[<-|[]]]]]; reflexivity. Qed.
  Lemma attr_neg ta q i : sp_attr ta q i -> negations ta = 0%nat.
  Proof. intros H. inversion H; subst; none; apply name_neg; assumption. Qed.
  Lemma op_neg o op : sp_op o op -> ttype_eqb NOT (t_type o) = false.
  Proof. intros H. inversion H; subst; (eapply neg_is; [eassumption|discriminate]). Qed.
  Lemma regex_neg tr v fl : sp_regex E C tr v fl -> negations tr = 0%nat.
  Proof. intros H. inversion H; subst; none. Qed.
  Lemma quantified_neg tq mn mx : quantified tq mn mx -> negations tq = 0%nat.
  Proof. intros H. inversion H; subst; none; (match goal with H : int_tok _ ?i |- context [?i] => destruct H as [H _]; eapply neg_is; [exact H|discriminate] end). Qed.
  Definition cnt_list (ns : list qnode) : nat := list_sum (map count_nots ns).
  Lemma cnt_one n : cnt_list [n] = count_nots n.
  Proof. unfold cnt_list. cbn. lia. Qed.
  Lemma cnt_cons n ns : cnt_list (n :: ns) = (count_nots n + cnt_list ns)%nat.
  Proof. reflexivity. Qed.
  Lemma expr_count : (forall ts n, sp_expr E C ts n -> negations ts = count_nots n) /\
    (forall sep ts ns, sp_exprs E C sep ts ns -> sep = AND \/ sep = OR -> negations ts = cnt_list ns).
  Proof.
    apply sp_expr_mutind; intros.
    - rewrite neg_app, neg_cons, (attr_neg _ _ _ H), (op_neg _ _ H0), (regex_neg _ _ _ H1). reflexivity.
    - rewrite neg_cons, neg_app, neg_cons, count_eq, H1, (neg_is _ _ H ltac:(discriminate)), (neg_is _ _ H2 ltac:(discriminate)). cbn. lia.
    - rewrite neg_cons, count_eq, H1. unfold is_tok in H. rewrite H. cbn. lia.
    - rewrite count_eq. apply H0. auto.
    - rewrite count_eq. apply H0. auto.
    - rewrite cnt_one. exact H0.
    - rewrite neg_app, neg_cons, cnt_cons, H0, (H3 H4), (neg_is _ _ H1); [lia|destruct H4; subst; discriminate].
  Qed.
  Lemma item_count :
    (forall ts n, sp_item E C ts n -> negations ts = count_nots n) /\ (forall ts ns, sp_seq E C ts ns -> negations ts = cnt_list ns) /\
    (forall ts ns, sp_alts E C ts ns -> negations ts = cnt_list ns) /\ (forall ts n, sp_operand E C ts n -> negations ts = count_nots n) /\
    (forall ts n, sp_content E C ts n -> negations ts = count_nots n).
  Proof.
    apply sp_item_mutind; intros.
    - rewrite neg_app, (regex_neg _ _ _ H), (quantified_neg _ _ _ H0). reflexivity.
    - rewrite !neg_cons, (quantified_neg _ _ _ H1), (neg_is _ _ H ltac:(discriminate)), (neg_is _ _ H0 ltac:(discriminate)). reflexivity.
    - rewrite neg_cons, neg_app, neg_cons, (quantified_neg _ _ _ H2), count_eq, (proj1 expr_count _ _ H0), (neg_is _ _ H ltac:(discriminate)), (neg_is _ _ H1 ltac:(discriminate)). cbn. lia.
    - rewrite neg_cons, neg_app, neg_cons, (quantified_neg _ _ _ H3), count_eq, H1, (neg_is _ _ H ltac:(discriminate)), (neg_is _ _ H2 ltac:(discriminate)). cbn. lia.
    - rewrite cnt_one. assumption.
    - rewrite neg_app, cnt_cons. lia.
    - rewrite cnt_one. assumption.
    - rewrite neg_app, neg_cons, cnt_cons, (neg_is _ _ H1 ltac:(discriminate)). lia.
    - assumption.
    - rewrite count_eq. assumption.
    - rewrite count_eq. assumption.
    - rewrite count_eq. assumption.
  Qed.
  Lemma query_count ts n : sp_query E C ts n -> negations ts = count_nots n.
  Proof.
    destruct item_count as (A & _ & _ & _ & B).
    assert (M : forall ts n, sp_main E C ts n -> negations ts = count_nots n) by (intros x m H; inversion H; subst; auto).
    intros H. inversion H; subst.
    - rewrite neg_app, neg_cons, (neg_is _ _ H1 ltac:(discriminate)), (M _ _ H0). cbn. lia.
    - rewrite neg_app, !neg_cons, (neg_is _ _ H1 ltac:(discriminate)), (neg_is _ _ H2 ltac:(discriminate)), (neg_is _ _ H4 ltac:(discriminate)), (M _ _ H0), count_eq. cbn. lia.
  Qed.
End Count.
