(** The generated parser computes what prediction selects. *)
From Verif Require Import Base LexRules Lexer Grammar Antlr GramSpec GramFacts LevelFacts SelFacts GenParser Atn AtnFacts AtnNets GenNet.
Local Open Scope Z_scope.
Opaque parser_atn.
Notation alts := GenParser.alts.

(** ** The methods implement the grammar. *)
Lemma method_body r : tr (method r) = body r.
Proof. destruct r; reflexivity. Qed.

(** ** First and follow sets *)
Definition nullable : ebnf -> bool :=
  fix go e := match e with
  | Tk _ | NT _ => false
  | Sq a b => (go a && go b)%bool
  | Al a b => (go a || go b)%bool
  | Op _ | St _ => true
  | Pl e => go e
  end.
Definition firstr (r : rule) : list ttype :=
  match r with
  | query | main_query | query_disjunction | query_sequence => [REGEXP; L_SQUARE_BRACKET; L_PAREN]
  | query_group | expression_group => [L_PAREN]
  | query_simple => [REGEXP; L_SQUARE_BRACKET]
  | quantifier => [Q_ONE_OR_MORE; Q_ZERO_OR_MORE; Q_ZERO_OR_ONE; L_CURLY_BRACKET]
  | query_implicit | regexp | regexp_pattern => [REGEXP]
  | query_segment => [L_SQUARE_BRACKET]
  | within_part | within_part_simple => [SIMPLE_WITHIN_SCOPE]
  | expression | expression_or | expression_and => [IDENTIFIER; WITHIN; SIMPLE_WITHIN_SCOPE; REGEXP_FLAGS; L_PAREN; NOT]
  | expression_not => [NOT]
  | expression_basic | attribute | qualifier | identifier => [IDENTIFIER; WITHIN; SIMPLE_WITHIN_SCOPE; REGEXP_FLAGS]
  | regexp_flag => [REGEXP_FLAGS]
  end.
Fixpoint first (e : ebnf) : list ttype :=
  match e with
  | Tk l => l
  | NT r => firstr r
  | Sq a b => first a ++ (if nullable a then first b else [])
  | Al a b => first a ++ first b
  | Op e | St e | Pl e => first e
  end.
Definition subset (a b : list ttype) : bool := forallb (fun t => tt_in t b) a.
Lemma subset_in a b t : subset a b = true -> In t a -> In t b.
Proof. unfold subset. rewrite forallb_forall. intros H Hin. apply tt_in_spec. auto. Qed.
Lemma firstr_ok r : subset (first (body r)) (firstr r) = true.
Proof. destruct r; vm_compute; reflexivity. Qed.
Lemma body_nullable r : nullable (body r) = false.
Proof. destruct r; reflexivity. Qed.

Lemma derives_first e x : derives e x -> match ttypes x with [] => nullable e = true | t :: _ => In t (first e) end.
Proof.
  induction 1 as [l t Hin|r ch Hd IH|a b x y _ IH1 _ IH2|a b x _ IH|a b x _ IH|e|e x _ IH|e x y _ IH1 _ IH2|e|e x y _ IH1 _ IH2]; cbn [nullable first].
  - exact Hin.
  - unfold ttypes in *. cbn [flat_map leaves]. rewrite app_nil_r. destruct (map t_type (flat_map leaves ch)); [rewrite body_nullable in IH; discriminate|].
    eapply subset_in; [apply firstr_ok|exact IH].
  - rewrite ttypes_app. destruct (ttypes x) as [|t w]; cbn [app].
    + rewrite IH1. destruct (ttypes y); [rewrite IH2; reflexivity|]. apply in_or_app. auto.
    + apply in_or_app. auto.
  - destruct (ttypes x); [rewrite IH; reflexivity|apply in_or_app; auto].
  - destruct (ttypes x); [rewrite IH; apply orb_true_r|apply in_or_app; auto].
  - reflexivity.
  - destruct (ttypes x); [reflexivity|exact IH].
  - rewrite ttypes_app. destruct (ttypes x) as [|t w]; cbn [app]; [|exact IH1]. destruct (ttypes y); [exact IH1|exact IH2].
  - reflexivity.
  - rewrite ttypes_app. destruct (ttypes x) as [|t w]; cbn [app]; [|exact IH1]. destruct (ttypes y); [reflexivity|exact IH2].
Qed.
(** The types that may stand in front of [K]; EOF for the end of input. *)
Definition la1t (w : list ttype) : ttype := match w with t :: _ => t | [] => EOF end.
Definition follows (K : list ebnf) (F : list ttype) : Prop := forall w, viable K w -> In (la1t w) F.
Lemma viable_first e K w : viable (e :: K) w -> In (la1t w) (first e) /\ w <> [] \/ nullable e = true /\ viable K w.
Proof.
  intros H. apply viable_cons_inv in H. destruct H as (w1 & w2 & -> & H1 & H2). apply viable_one in H1. destruct H1 as (x & Hd & <-).
  pose proof (derives_first e x Hd) as Hf. destruct (ttypes x); [right; auto|left]. split; [exact Hf|discriminate].
Qed.
Definition firsts (e : ebnf) (F : list ttype) : list ttype := first e ++ (if nullable e then F else []).
Lemma follows_cons e K F : follows K F -> follows (e :: K) (firsts e F).
Proof.
  intros HK w H. unfold firsts. apply in_or_app. destruct (viable_first e K w H) as [[Hf _]|[-> Hv]]; auto.
Qed.
Lemma follows_nil : follows [] [EOF].
Proof. intros w H. apply viable_nil_inv in H. subst. left. reflexivity. Qed.
Lemma follows_weaken K F F' : subset F F' = true -> follows K F -> follows K F'.
Proof. intros Hs H w Hw. eapply subset_in; eauto. Qed.

Definition followr (r : rule) : list ttype :=
  match r with
  | query => [EOF]
  | main_query => [WITHIN; EOF]
  | query_disjunction => [WITHIN; EOF; R_PAREN]
  | query_sequence => [WITHIN; EOF; R_PAREN; OR]
  | query_group | query_simple | quantifier => [WITHIN; EOF; R_PAREN; OR; REGEXP; L_SQUARE_BRACKET; L_PAREN]
  | query_implicit | query_segment => [WITHIN; EOF; R_PAREN; OR; REGEXP; L_SQUARE_BRACKET; L_PAREN; Q_ONE_OR_MORE; Q_ZERO_OR_MORE; Q_ZERO_OR_ONE; L_CURLY_BRACKET]
  | within_part | within_part_simple => [EOF]
  | expression => [R_SQUARE_BRACKET]
  | expression_or | expression_and | expression_group | expression_not | expression_basic => [R_SQUARE_BRACKET; R_PAREN; AND; OR]
  | attribute | identifier => [OPERATOR_EQ; OPERATOR_NE]
  | qualifier => [COLON]
  | regexp | regexp_flag => [WITHIN; EOF; R_PAREN; OR; REGEXP; L_SQUARE_BRACKET; L_PAREN; Q_ONE_OR_MORE; Q_ZERO_OR_MORE; Q_ZERO_OR_ONE; L_CURLY_BRACKET; R_SQUARE_BRACKET; AND]
  | regexp_pattern => [WITHIN; EOF; R_PAREN; OR; REGEXP; L_SQUARE_BRACKET; L_PAREN; Q_ONE_OR_MORE; Q_ZERO_OR_MORE; Q_ZERO_OR_ONE; L_CURLY_BRACKET; R_SQUARE_BRACKET; AND; FWD_SLASH]
  end.

(** ** The single-token tests decide right *)
Definition all_ttypes : list ttype :=
  [EOF; L_PAREN; R_PAREN; L_SQUARE_BRACKET; R_SQUARE_BRACKET; OR; AND; NOT; FWD_SLASH; L_CURLY_BRACKET; R_CURLY_BRACKET; Q_ONE_OR_MORE; Q_ZERO_OR_MORE;
   Q_ZERO_OR_ONE; Q_COMMA; OPERATOR_EQ; OPERATOR_NE; COLON; WITHIN; SIMPLE_WITHIN_SCOPE; REGEXP_FLAGS; IDENTIFIER; INTEGER; REGEXP; QUOTED_STRING; Space].
Lemma all_ttypes_all t : In t all_ttypes.
Proof. destruct t; cbn; tauto. Qed.
Definition yes_on (x : latest) (l : list ttype) : bool := forallb (la_test x) l.
Definition no_on (x : latest) (l : list ttype) : bool := forallb (fun t => negb (la_test x t)) l.
Fixpoint ll1 (F : list ttype) (s : stm) : bool :=
  match s with
  | Match _ _ => true
  | MatchSet _ x l => forallb (fun t => Bool.eqb (la_test x t) (tt_in t l)) all_ttypes
  | Call _ r => subset F (followr r)
  | Seq a b => (ll1 (firsts (tr b) F) a && ll1 F b)%bool
  | Switch _ cases =>
      (fix go (l : list (latest * stm)) : bool :=
         match l with
         | [] => true
         | c :: l' =>
             (negb (nullable (tr (snd c))) && yes_on (fst c) (first (tr (snd c))) && ll1 F (snd c) &&
              forallb (fun c' => no_on (fst c) (first (tr (snd c')))) l' && go l')%bool
         end) cases
  | IfLa _ x s => (negb (nullable (tr s)) && yes_on x (first (tr s)) && no_on x F && ll1 F s)%bool
  | Pred _ _ l => forallb (ll1 F) l
  | PredOpt _ _ s => ll1 F s
  | DoLa _ s _ x | LoopLa s _ x => (negb (nullable (tr s)) && yes_on x (first (tr s)) && no_on x F && ll1 (first (tr s) ++ F) s)%bool
  | DoPred _ s _ _ | LoopPred s _ _ => ll1 (first (tr s) ++ F) s
  end.
Lemma method_ll1 r : ll1 (followr r) (method r) = true.
Proof. destruct r; vm_compute; reflexivity. Qed.
Lemma yes_on_in x l t : yes_on x l = true -> In t l -> la_test x t = true.
Proof. unfold yes_on. rewrite forallb_forall. auto. Qed.
Lemma no_on_in x l t : no_on x l = true -> In t l -> la_test x t = false.
Proof. unfold no_on. rewrite forallb_forall. intros H Hin. apply negb_true_iff. auto. Qed.

(** ** Prediction *)
Definition least_viable (Ks : list (list ebnf)) (w : list ttype) (i : nat) : Prop :=
  (exists K, nth_error Ks i = Some K /\ viable K w) /\
  forall j K, (j < i)%nat -> nth_error Ks j = Some K -> ~ viable K w.

Section Correct.
  Variable p : nat -> list Z -> list ttype -> option nat.
  Variable sy : Z -> ttype -> bool.
  Hypothesis Hp : predicts P p.
  Hypothesis Hsy : syncs P sy.
  Notation run := (run p sy).
  Notation fol := (map (follow_of P)).

  Lemma alternatives_at d n : nth_error (a_decisions P) d = Some n -> alternatives P d = map snd (out P n).
  Proof. unfold alternatives. intros ->. reflexivity. Qed.
  Lemma F2_length {X Y} (R : X -> Y -> Prop) a b : Forall2 R a b -> length a = length b.
  Proof. induction 1; cbn; congruence. Qed.
  Lemma F2_nth {X Y} (R : X -> Y -> Prop) a b : Forall2 R a b -> forall i x, nth_error a i = Some x -> exists y, nth_error b i = Some y /\ R x y.
  Proof. induction 1 as [|x y a b Hxy _ IH]; intros [|i] z Hz; try discriminate; [injection Hz as <-; exists y; auto|apply IH; exact Hz]. Qed.
  Lemma F2_nth' {X Y} (R : X -> Y -> Prop) a b : Forall2 R a b -> forall i y, nth_error b i = Some y -> exists x, nth_error a i = Some x /\ R x y.
  Proof. induction 1 as [|x y a b Hxy _ IH]; intros [|i] z Hz; try discriminate; [injection Hz as <-; exists x; auto|apply IH; exact Hz]. Qed.
  Lemma predicted d n c w Ks i : nth_error (a_decisions P) d = Some n -> Forall2 (fun K e => pend K (snd e) (fol c)) Ks (out P n) -> least_viable Ks w i -> p d c w = Some (S i).
  Proof.
    intros Hd HF [(K & Hn & Hv) Hlt]. apply (proj2 Hp). unfold least_alt. rewrite (alternatives_at _ _ Hd). split.
    - destruct (F2_nth _ _ _ HF _ _ Hn) as (e & He & Hpe). exists (snd e). replace (S i - 1)%nat with i by lia. rewrite nth_error_map, He. split; [reflexivity|]. split; [lia|].
      apply (reach_viable _ _ _ Hpe). exact Hv.
    - intros j t Hj Ht Hr. rewrite nth_error_map in Ht. destruct (nth_error (out P n) (j - 1)) as [e|] eqn:He; [|discriminate]. injection Ht as <-.
      destruct (F2_nth' _ _ _ HF _ _ He) as (K' & HK' & Hpe). apply (Hlt (j - 1)%nat K'); [lia|exact HK'|]. apply (reach_viable _ _ _ Hpe). exact Hr.
  Qed.
  Lemma sync_ok K n st w : pend K n st -> viable K w -> sy n (la1t w) = true.
  Proof.
    intros HP Hv. apply (reach_viable _ _ _ HP) in Hv. apply Hsy. destruct (reach_next _ _ _ Hv) as [H|(y & w' & -> & H)]; [right; exact H|left; exact H].
  Qed.
  (** Alternatives of a prediction. *)
  Lemma pend_alts l es v K st : Forall2 (fun s e => fst e = Epsilon /\ placed s (pnm (snd e)) v) l es -> pend K v st -> Forall2 (fun K e => pend K (snd e) st) (map (fun s => tr s :: K) l) es.
  Proof.
    intros HF HK. induction HF as [|s e l es [_ Hs] _ IH]; cbn [map]; constructor; [|exact IH]. apply pend_nm. eapply pend_stm; eassumption.
  Qed.
  Lemma pend_two (n a b : Z) K1 K2 st : out P n = [(Epsilon, a); (Epsilon, b)] -> pend K1 (pnm a) st -> pend K2 (pnm b) st -> Forall2 (fun K e => pend K (snd e) st) [K1; K2] (out P n).
  Proof. intros -> H1 H2. repeat constructor; apply pend_nm; assumption. Qed.
  Lemma pend_loop s q m a b K st : placed s q m -> out P m = [(Epsilon, a); (Epsilon, b)] -> pnm a = q -> pend K (pnm b) st -> pend (St (tr s) :: K) m st.
  Proof. intros Hs Ho Ha HK. eapply pend_cons; [|exact HK]. eapply loop_frag; [exact Ho|apply placed_frag; exact Hs|exact Ha]. Qed.

  (** Whatever the tokens: a successful run yields a derivation. *)
  Lemma alts_derives l e x : In e l -> derives e x -> derives (alts l) x.
  Proof.
    induction l as [|a l IH]; intros Hin Hd; [destruct Hin|]. destruct l as [|b l]; [destruct Hin as [<-|[]]; exact Hd|].
    cbn [alts]. destruct Hin as [<-|Hin]; [apply d_al1; exact Hd|apply d_al2; apply IH; assumption].
  Qed.
  Lemma then_ok a k x r : then_ a k = GOk x r -> exists x1 r1 x2, a = GOk x1 r1 /\ k r1 = GOk x2 r /\ x = x1 ++ x2.
  Proof.
    unfold then_. destruct a as [x1 r1| |]; try discriminate. destruct (k r1) as [x2 r2| |] eqn:H; try discriminate. intros Heq. injection Heq as <- <-. eauto 6.
  Qed.
  Lemma run_sound f : forall s c ts x r F q v, ll1 F s = true -> placed s q v -> run f s c ts = GOk x r -> derives (tr s) x /\ ts = flat_map leaves x ++ r.
  Proof.
    induction f as [|f IH]; intros s c ts x r F q v Hll Hpl H; [discriminate|]. destruct s; cbn [GenParser.run tr ll1] in *.
    - destruct ts as [|k ts]; [discriminate|]. unfold ttype_eqb in H. destruct (ttype_eq_dec (t_type k) t) as [<-|]; [|discriminate]. injection H as <- <-.
      split; [constructor; left; reflexivity|reflexivity].
    - destruct ts as [|k ts]; [discriminate|]. destruct (la_test x0 (t_type k)) eqn:Ht; [|discriminate]. injection H as <- <-. split; [|reflexivity].
      constructor. rewrite forallb_forall in Hll. specialize (Hll _ (all_ttypes_all (t_type k))). apply Bool.eqb_prop in Hll. apply tt_in_spec. congruence.
    - destruct (run f (method r0) _ ts) as [ch rest| |] eqn:Hr; try discriminate. injection H as <- <-. destruct (method_placed r0) as (w & Hw & _). destruct (IH _ _ _ _ _ _ _ _ (method_ll1 r0) Hw Hr) as [Hd ->].
      rewrite method_body in Hd. split; [constructor; exact Hd|]. cbn. rewrite app_nil_r. reflexivity.
    - apply then_ok in H. destruct H as (x1 & r1 & x2 & H1 & H2 & ->). apply andb_prop in Hll. destruct Hll as [Hl1 Hl2]. inversion Hpl as [| | |? ? ? t ? P1 P2| | | | | | | |]; subst.
      destruct (IH _ _ _ _ _ _ _ _ Hl1 P1 H1) as [D1 ->]. destruct (IH _ _ _ _ _ _ _ _ Hl2 P2 H2) as [D2 ->]. split; [constructor; assumption|]. rewrite flat_map_app, <- app_assoc. reflexivity.
    - destruct (sy _ _); [|discriminate]. destruct (find _ cases) as [c0|] eqn:Hf; [|discriminate]. apply find_some in Hf. destruct Hf as [Hin _].
      assert (Hc : ll1 F (snd c0) = true).
      { clear -Hll Hin. induction cases as [|c' l IHl]; [destruct Hin|]. rewrite !andb_true_iff in Hll. destruct Hll as ((((_ & _) & Hc) & _) & Hll). destruct Hin as [<-|Hin]; auto. }
      inversion Hpl as [| | | |? ? ? _ HF| | | | | | |]; subst. destruct (In_nth_error _ _ Hin) as (i & Hi). destruct (F2_nth _ _ _ HF _ _ Hi) as (e & _ & _ & Pc).
      destruct (IH _ _ _ _ _ _ _ _ Hc Pc H) as [D ->]. split; [|reflexivity]. eapply alts_derives; [|exact D]. apply (in_map (fun c => tr (snd c))). exact Hin.
    - destruct (sy _ _); [|discriminate]. inversion Hpl as [| | | | |? ? ? a b Ho Ps| | | | | |]; subst. rewrite !andb_true_iff in Hll. destruct Hll as [_ Hll]. destruct (la_test _ _); [|injection H as <- <-; split; [constructor|reflexivity]].
      destruct (IH _ _ _ _ _ _ _ _ Hll Ps H) as [D ->]. split; [apply d_op1; exact D|reflexivity].
    - destruct (sy _ _); [|discriminate]. inversion Hpl as [| | | | | |? ? ? ? _ Hd HF| | | | |]; subst.
      destruct (p d _ _) as [[|i]|] eqn:Hpr; try discriminate; apply (proj1 Hp) in Hpr; [lia|]. rewrite (alternatives_at _ _ Hd), map_length, <- (F2_length _ _ _ HF) in Hpr.
      destruct (nth_error alts i) as [s|] eqn:Hn; [|apply nth_error_None in Hn; lia]. destruct (F2_nth _ _ _ HF _ _ Hn) as (e & _ & _ & Ps). apply nth_error_In in Hn. rewrite forallb_forall in Hll.
      destruct (IH _ _ _ _ _ _ _ _ (Hll _ Hn) Ps H) as [D ->]. split; [|reflexivity]. eapply alts_derives; [|exact D]. apply in_map. exact Hn.
    - destruct (sy _ _); [|discriminate]. inversion Hpl as [| | | | | | |? ? ? a b Hd Ho Ps| | | |]; subst.
      destruct (p d _ _) as [[|[|i]]|] eqn:Hpr; try discriminate; [injection H as <- <-; split; [constructor|reflexivity]| |injection H as <- <-; split; [constructor|reflexivity]].
      destruct (IH _ _ _ _ _ _ _ _ Hll Ps H) as [D ->]. split; [apply d_op1; exact D|reflexivity].
    - destruct (sy _ _); [|discriminate]. inversion Hpl as [| | | | | | | | | |? ? ? ? ? Pl|]; subst. exact (IH (LoopLa s m x0) _ _ _ _ F _ _ Hll Pl H).
    - destruct (sy _ _); [|discriminate]. inversion Hpl as [| | | | | | | | | | |? ? ? ? ? Pl]; subst. exact (IH (LoopPred s m d) _ _ _ _ F _ _ Hll Pl H).
    - apply then_ok in H. destruct H as (x1 & r1 & x2 & H1 & H2 & ->). assert (Hll0 := Hll). rewrite !andb_true_iff in Hll. destruct Hll as [_ Hll]. inversion Hpl as [| | | | | | | |? ? ? ? a b Ps Ho Ha| | |]; subst.
      destruct (IH _ _ _ _ _ _ _ _ Hll Ps H1) as [D1 ->]. rewrite flat_map_app. destruct (sy _ _); [|discriminate]. destruct (la_test _ _).
      + destruct (IH (LoopLa s m x0) _ _ _ _ F _ _ Hll0 Hpl H2) as [D2 ->]. cbn [tr] in D2. split; [|rewrite <- app_assoc; reflexivity]. inversion D2; subst. constructor; [exact D1|]. constructor; assumption.
      + injection H2 as <- <-. split; [constructor; [exact D1|constructor]|]. cbn. rewrite app_nil_r. reflexivity.
    - apply then_ok in H. destruct H as (x1 & r1 & x2 & H1 & H2 & ->). inversion Hpl as [| | | | | | | | |? ? ? ? a b Hd Ps Ho Ha| |]; subst.
      destruct (IH _ _ _ _ _ _ _ _ Hll Ps H1) as [D1 ->]. rewrite flat_map_app. destruct (sy _ _); [|discriminate].
      assert (Hend : GOk [] r1 = GOk x2 r -> derives (Pl (tr s)) (x1 ++ x2) /\ flat_map leaves x1 ++ r1 = (flat_map leaves x1 ++ flat_map leaves x2) ++ r).
      { intros He. injection He as <- <-. split; [constructor; [exact D1|constructor]|]. cbn. rewrite app_nil_r. reflexivity. }
      destruct (p d _ _) as [[|[|i]]|] eqn:Hpr; try discriminate; auto.
      destruct (IH (LoopPred s m d) _ _ _ _ F _ _ Hll Hpl H2) as [D2 ->]. cbn [tr] in D2. split; [|rewrite <- app_assoc; reflexivity]. inversion D2; subst. constructor; [exact D1|]. constructor; assumption.
  Qed.

  Lemma sel_alts l : forall K s x r, selects (alts l) K s x r ->
    exists i e, nth_error l i = Some e /\ selects e K s x r /\ forall j e', (j < i)%nat -> nth_error l j = Some e' -> ~ viable (e' :: K) (types s).
  Proof.
    induction l as [|a l IH]; intros K s x r H; [inversion H as [? ? ? ? Hin| | | | | | | | |]; subst; destruct Hin|]. destruct l as [|b l].
    - exists 0%nat, a. split; [reflexivity|]. split; [exact H|]. intros j e' Hj. lia.
    - cbn [alts] in H. inversion H as [| | |? ? ? ? ? ? Hv Hs|? ? ? ? ? ? Hv Hs| | | | |]; subst.
      + exists 0%nat, a. split; [reflexivity|]. split; [exact Hs|]. intros j e' Hj. lia.
      + destruct (IH _ _ _ _ Hs) as (i & e & Hn & Hse & Hlt). exists (S i), e. split; [exact Hn|]. split; [exact Hse|].
        intros [|j] e' Hj Hn'; [injection Hn' as <-; exact Hv|]. apply (Hlt j); [lia|exact Hn'].
  Qed.
  Lemma la1_types ts : la1 ts = la1t (types ts).
  Proof. destruct ts; reflexivity. Qed.
  Lemma first_of e K w : viable (e :: K) w -> nullable e = false -> In (la1t w) (first e).
  Proof. intros Hv Hn. destruct (viable_first _ _ _ Hv) as [[H _]|[H _]]; [exact H|congruence]. Qed.

  Lemma alts_loops l : loops_ok (alts l) = forallb loops_ok l.
  Proof. induction l as [|a l IH]; [reflexivity|]. destruct l as [|b l]; [cbn; rewrite andb_true_r; reflexivity|]. change (alts (a :: b :: l)) with (Al a (alts (b :: l))). change (forallb loops_ok (a :: b :: l)) with (loops_ok a && forallb loops_ok (b :: l)). rewrite <- IH. reflexivity. Qed.
  Lemma run_selects f : forall s K c ts x r F q v, selects (tr s) K ts x r -> viable K (types r) -> follows K F -> ll1 F s = true ->
    placed s q v -> pend K v (fol c) ->
    run f s c ts = GOk x r \/ run f s c ts = GFuel.
  Proof.
    induction f as [|f IH]; intros s K c ts x r F q v Hs HK HF Hll Hpl HP; [right; reflexivity|].
    pose proof (pend_stm _ _ _ _ _ Hpl HP) as HPq. pose proof (selects_viable _ _ _ _ _ Hs HK) as Hvq.
    destruct s; cbn [GenParser.run tr ll1] in *.
    - inversion Hs as [? ? k ts' Hin| | | | | | | | |]; subst. destruct Hin as [Hin|[]]. unfold ttype_eqb. rewrite <- Hin. destruct (ttype_eq_dec t t); [|contradiction]. auto.
    - inversion Hs as [? ? k ts' Hin| | | | | | | | |]; subst. rewrite forallb_forall in Hll. specialize (Hll _ (all_ttypes_all (t_type k))). apply Bool.eqb_prop in Hll.
      apply tt_in_spec in Hin. rewrite Hll, Hin. auto.
    - inversion Hs as [|? ? ? ch ? Hb| | | | | | | |]; subst. rewrite <- method_body in Hb. inversion Hpl as [| |? ? pr w Ho| | | | | | | | |]; subst.
      destruct (method_placed r0) as (w' & Hw & Hst).
      assert (HP' : pend K w' (fol (q :: c))) by (cbn [map]; rewrite (follow_call _ _ _ _ Ho); apply pend_ret; [exact Hst|apply pend_nm; exact HP]).
      destruct (IH _ _ (q :: c) _ _ _ (followr r0) _ _ Hb HK (follows_weaken _ _ _ Hll HF) (method_ll1 r0) Hw HP') as [->| ->]; auto.
    - inversion Hs as [| |? ? ? ? x1 r1 x2 ? H1 H2| | | | | | |]; subst. apply andb_prop in Hll. destruct Hll as [Hl1 Hl2]. inversion Hpl as [| | |? ? ? t ? P1 P2| | | | | | | |]; subst.
      pose proof (selects_viable _ _ _ _ _ H2 HK) as HK2.
      destruct (IH _ _ _ _ _ _ _ _ _ H1 HK2 (follows_cons _ _ _ HF) Hl1 P1 (pend_stm _ _ _ _ _ P2 HP)) as [->| ->]; [|auto]. cbn [then_].
      destruct (IH _ _ _ _ _ _ _ _ _ H2 HK HF Hl2 P2 HP) as [->| ->]; auto.
    - rewrite la1_types. inversion Hpl as [| | | |? ? ? _ HFc| | | | | | |]; subst. rewrite (sync_ok _ _ _ _ HPq Hvq).
      apply sel_alts in Hs. destruct Hs as (i & e & Hn & Hs & Hlt).
      pose proof (selects_viable _ _ _ _ _ Hs HK) as Hv.
      assert (Hfind : exists c, find (fun c => la_test (fst c) (la1t (types ts))) cases = Some c /\ tr (snd c) = e /\ ll1 F (snd c) = true).
      { clear IH Hlt Hpl HFc HPq Hvq. revert i Hn Hll. induction cases as [|c0 l IHl]; intros i Hn Hll; [destruct i; discriminate|]. rewrite !andb_true_iff in Hll.
        destruct Hll as ((((Hnul & Hyes) & Hc) & Hno) & Hll). apply negb_true_iff in Hnul. cbn [find]. destruct i as [|i]; cbn in Hn.
        - injection Hn as <-. rewrite (yes_on_in _ _ _ Hyes (first_of _ _ _ Hv Hnul)). eauto.
        - destruct (IHl i Hn Hll) as (c' & Hc' & He & Hl'). assert (Hin : In c' l) by (apply find_some in Hc'; apply Hc').
          rewrite forallb_forall in Hno. specialize (Hno _ Hin). destruct (la_test (fst c0) _) eqn:Ht; [|eauto].
          exfalso. assert (Hnc : nullable (tr (snd c')) = false).
          { clear -Hin Hll. induction l as [|c0 l IHl]; [destruct Hin|]. rewrite !andb_true_iff in Hll. destruct Hll as ((((Hnul & _) & _) & _) & Hll). destruct Hin as [<-|Hin]; [apply negb_true_iff; exact Hnul|auto]. }
          rewrite He in Hno, Hnc. rewrite (no_on_in _ _ _ Hno (first_of _ _ _ Hv Hnc)) in Ht. discriminate. }
      destruct Hfind as (c0 & Hc0 & He & Hc). rewrite Hc0. subst e. apply find_some in Hc0. destruct Hc0 as [Hin _]. destruct (In_nth_error _ _ Hin) as (j & Hj). destruct (F2_nth _ _ _ HFc _ _ Hj) as (e & _ & _ & Pc).
      eapply IH; eassumption.
    - rewrite !andb_true_iff in Hll. destruct Hll as (((Hnul & Hyes) & Hno) & Hl). apply negb_true_iff in Hnul. rewrite la1_types.
      inversion Hpl as [| | | | |? ? ? a b Ho Ps| | | | | |]; subst. rewrite (sync_ok _ _ _ _ HPq Hvq).
      inversion Hs as [| | | | |? ? ? ? ? Hv H1|? ? ? Hv| | |]; subst.
      + rewrite (yes_on_in _ _ _ Hyes (first_of _ _ _ Hv Hnul)). eapply IH; eassumption.
      + rewrite (no_on_in _ _ _ Hno (HF _ HK)). auto.
    - rewrite la1_types. inversion Hpl as [| | | | | |? ? ? ? _ Hd HFc| | | | |]; subst. rewrite (sync_ok _ _ _ _ HPq Hvq).
      apply sel_alts in Hs. destruct Hs as (i & e & Hn & Hs & Hlt). pose proof (selects_viable _ _ _ _ _ Hs HK) as Hv.
      rewrite nth_error_map in Hn. destruct (nth_error alts i) as [s|] eqn:Hi; [|discriminate]. injection Hn as <-.
      assert (Hpr : p d c (types_of ts) = Some (S i)).
      { apply (predicted d q c _ (map (fun s0 => tr s0 :: K) alts)); [exact Hd|eapply pend_alts; eassumption|]. split.
        - exists (tr s :: K). split; [rewrite nth_error_map, Hi; reflexivity|exact Hv].
        - intros j K' Hj Hn'. rewrite nth_error_map in Hn'. destruct (nth_error alts j) as [s'|] eqn:Hj'; [|discriminate]. injection Hn' as <-.
          apply (Hlt j); [exact Hj|]. rewrite nth_error_map, Hj'. reflexivity. }
      rewrite Hpr, Hi. rewrite forallb_forall in Hll. destruct (F2_nth _ _ _ HFc _ _ Hi) as (e & _ & _ & Ps). apply nth_error_In in Hi. eapply IH; try eassumption. apply Hll. exact Hi.
    - rewrite la1_types. inversion Hpl as [| | | | | | |? ? ? a b Hd Ho Ps| | | |]; subst. rewrite (sync_ok _ _ _ _ HPq Hvq).
      assert (HP2 : Forall2 (fun K e => pend K (snd e) (fol c)) [tr s :: K; K] (out P q)) by (eapply pend_two; [exact Ho|eapply pend_stm; eassumption|exact HP]).
      inversion Hs as [| | | | |? ? ? ? ? Hv H1|? ? ? Hv| | |]; subst.
      + assert (Hpr : p d c (types_of ts) = Some 1%nat).
        { apply (predicted d q c _ _ 0 Hd HP2). split; [eexists; split; [reflexivity|exact Hv]|]. intros j K' Hj. lia. }
        rewrite Hpr. eapply IH; eassumption.
      + assert (Hpr : p d c (types_of r) = Some 2%nat).
        { apply (predicted d q c _ _ 1 Hd HP2). split; [eexists; split; [reflexivity|exact HK]|]. intros [|j] K' Hj Hn; [injection Hn as <-; exact Hv|lia]. }
        rewrite Hpr. auto.
    - rewrite la1_types. inversion Hpl as [| | | | | | | | | |? ? ? ? ? Pl|]; subst. rewrite (sync_ok _ _ _ _ (pend_nm _ _ _ HPq) Hvq).
      exact (IH (LoopLa s m x0) K c ts x r F _ _ Hs HK HF Hll Pl HP).
    - rewrite la1_types. inversion Hpl as [| | | | | | | | | | |? ? ? ? ? Pl]; subst. rewrite (sync_ok _ _ _ _ (pend_nm _ _ _ HPq) Hvq).
      exact (IH (LoopPred s m d) K c ts x r F _ _ Hs HK HF Hll Pl HP).
    - assert (Hll0 := Hll). rewrite !andb_true_iff in Hll. destruct Hll as (((Hnul & Hyes) & Hno) & Hl). apply negb_true_iff in Hnul. inversion Hpl as [| | | | | | | |? ? ? ? a b Ps Ho Ha| | |]; subst.
      inversion Hs as [| | | | | | |? ? ? ? ? H0| |]; subst. inversion H0 as [| |? ? ? ? x1 r1 x2 ? H1 H2| | | | | | |]; subst.
      pose proof (selects_viable _ _ _ _ _ H2 HK) as HK2. pose proof (pend_loop _ _ _ _ _ _ _ Ps Ho eq_refl HP) as HPm.
      assert (HF2 : follows (St (tr s) :: K) (first (tr s) ++ F)) by (apply follows_cons with (e := St (tr s)); exact HF).
      destruct (IH _ _ _ _ _ _ _ _ _ H1 HK2 HF2 Hl Ps HPm) as [->| ->]; [|auto]. cbn [then_]. rewrite la1_types, (sync_ok _ _ _ _ HPm HK2).
      inversion H2 as [| | | | | | | |? ? ? ? ? Hv H3|? ? ? Hv]; subst.
      + rewrite (yes_on_in _ _ _ Hyes (first_of _ _ _ Hv Hnul)).
        destruct (IH (LoopLa s m x0) K c r1 x2 r F _ _ (s_pl _ _ _ _ _ H3) HK HF Hll0 Hpl HP) as [->| ->]; auto.
      + rewrite (no_on_in _ _ _ Hno (HF _ HK)), app_nil_r. auto.
    - inversion Hpl as [| | | | | | | | |? ? ? ? a b Hd Ps Ho Ha| |]; subst.
      inversion Hs as [| | | | | | |? ? ? ? ? H0| |]; subst. inversion H0 as [| |? ? ? ? x1 r1 x2 ? H1 H2| | | | | | |]; subst.
      pose proof (selects_viable _ _ _ _ _ H2 HK) as HK2. pose proof (pend_loop _ _ _ _ _ _ _ Ps Ho eq_refl HP) as HPm.
      assert (HF2 : follows (St (tr s) :: K) (first (tr s) ++ F)) by (apply follows_cons with (e := St (tr s)); exact HF).
      destruct (IH _ _ _ _ _ _ _ _ _ H1 HK2 HF2 Hll Ps HPm) as [->| ->]; [|auto]. cbn [then_]. rewrite la1_types, (sync_ok _ _ _ _ HPm HK2).
      assert (HP2 : Forall2 (fun K e => pend K (snd e) (fol c)) [tr s :: St (tr s) :: K; K] (out P m)) by (eapply pend_two; [exact Ho|eapply pend_stm; eassumption|exact HP]).
      inversion H2 as [| | | | | | | |? ? ? ? ? Hv H3|? ? ? Hv]; subst.
      + assert (Hpr : p d c (types_of r1) = Some 1%nat).
        { apply (predicted d m c _ _ 0 Hd HP2). split; [eexists; split; [reflexivity|exact Hv]|]. intros j K' Hj. lia. }
        rewrite Hpr. destruct (IH (LoopPred s m d) K c r1 x2 r F _ _ (s_pl _ _ _ _ _ H3) HK HF Hll Hpl HP) as [->| ->]; auto.
      + assert (Hpr : p d c (types_of r) = Some 2%nat).
        { apply (predicted d m c _ _ 1 Hd HP2). split; [eexists; split; [reflexivity|exact HK]|]. intros [|j] K' Hj Hn; [injection Hn as <-; exact Hv|lia]. }
        rewrite Hpr, app_nil_r. auto.
  Qed.

  (** ** Termination *)
  (** Fewest tokens of a right-hand side. *)
  Fixpoint mintok (e : ebnf) : Z :=
    match e with
    | Tk _ | NT _ => 1
    | Sq a b => mintok a + mintok b
    | Al a b => Z.min (mintok a) (mintok b)
    | Op _ | St _ => 0
    | Pl e => mintok e
    end.
  Lemma mintok_nonneg e : 0 <= mintok e.
  Proof. induction e; cbn; lia. Qed.
  Lemma derives_mintok e x : derives e x -> mintok e <= ntok x.
  Proof.
    induction 1 as [l t Hin|r ch Hd IH|a b x y _ IH1 _ IH2|a b x _ IH|a b x _ IH|e|e x _ IH|e x y _ IH1 _ IH2|e|e x y _ IH1 _ IH2]; cbn [mintok]; rewrite ?ntok_app; try (unfold ntok in *; lia).
    - cbn. lia.
    - assert (H : ntok [Node r ch] = ntok ch) by (unfold ntok; cbn; rewrite app_nil_r; reflexivity). rewrite H.
      assert (1 <= mintok (body r)) by (destruct r; cbn; lia). lia.
  Qed.
  Definition costr (r : rule) : Z :=
    match r with
    | qualifier | identifier | regexp_pattern | regexp_flag | within_part_simple => 1
    | within_part => 3
    | quantifier => 4
    | attribute => 6
    | regexp => 4
    | query_implicit => 6
    | query_segment => 4
    | expression_basic => 10
    | expression_group => 4
    | expression_not => 4
    | expression_and => 16
    | expression_or => 20
    | expression => 24
    | query_simple => 10
    | query_group => 4
    | query_sequence => 14
    | query_disjunction => 20
    | main_query => 24
    | query => 30
    end.
  Fixpoint cost (s : stm) : Z :=
    match s with
    | Match _ _ | MatchSet _ _ _ => 1
    | Call _ r => 1 + costr r
    | Seq a b => 1 + Z.max (cost a) (cost b - 64 * mintok (tr a))
    | Switch _ cases => 1 + fold_right (fun c m => Z.max (cost (snd c)) m) 0 cases
    | IfLa _ _ s | PredOpt _ _ s => 1 + cost s
    | Pred _ _ l => 1 + fold_right (fun s m => Z.max (cost s) m) 0 l
    | LoopLa s _ _ | LoopPred s _ _ => 1 + cost s
    | DoLa _ s _ _ | DoPred _ s _ _ => 2 + cost s
    end.
  Lemma method_cost r : cost (method r) <= costr r.
  Proof. destruct r; vm_compute; discriminate. Qed.
  Fixpoint progress (s : stm) : bool :=
    match s with
    | Match _ _ | MatchSet _ _ _ | Call _ _ => true
    | Seq a b => (progress a && progress b)%bool
    | Switch _ cases => forallb (fun c => progress (snd c)) cases
    | IfLa _ _ s | PredOpt _ _ s => progress s
    | Pred _ _ l => forallb progress l
    | DoLa _ s _ _ | DoPred _ s _ _ | LoopLa s _ _ | LoopPred s _ _ => ((1 <=? mintok (tr s)) && progress s)%bool
    end.
  Lemma method_progress r : progress (method r) = true.
  Proof. destruct r; vm_compute; reflexivity. Qed.
  Lemma fold_max {A} (g : A -> Z) l x : In x l -> g x <= fold_right (fun c m => Z.max (g c) m) 0 l.
  Proof. induction l as [|a l IH]; intros Hin; [destruct Hin|]. cbn. destruct Hin as [<-|Hin]; [lia|]. specialize (IH Hin). lia. Qed.
  Lemma fold_max_nonneg {A} (g : A -> Z) l : 0 <= fold_right (fun c m => Z.max (g c) m) 0 l.
  Proof. induction l as [|a l IH]; cbn; lia. Qed.
  Fixpoint cost_pos (s : stm) : 1 <= cost s.
  Proof.
    destruct s; cbn [cost]; try lia.
    - destruct r; cbn; lia.
    - specialize (cost_pos s1). lia.
    - pose proof (fold_max_nonneg (fun c => cost (snd c)) cases). lia.
    - specialize (cost_pos s). lia.
    - pose proof (fold_max_nonneg cost alts). lia.
    - specialize (cost_pos s). lia.
    - specialize (cost_pos s). lia.
    - specialize (cost_pos s). lia.
    - specialize (cost_pos s). lia.
    - specialize (cost_pos s). lia.
  Qed.
  Lemma consumed s F f c ts x r q v : ll1 F s = true -> placed s q v -> run f s c ts = GOk x r -> Z.of_nat (length r) <= Z.of_nat (length ts) - mintok (tr s).
  Proof.
    intros Hl Hpl H. destruct (run_sound _ _ _ _ _ _ _ _ _ Hl Hpl H) as [Hd ->]. rewrite app_length. apply derives_mintok in Hd. unfold ntok in Hd. lia.
  Qed.
  Lemma then_fuel a k : a <> GFuel -> (forall x r, a = GOk x r -> k r <> GFuel) -> then_ a k <> GFuel.
  Proof.
    unfold then_. intros Ha Hk. destruct a as [x r| |]; [|discriminate|contradiction]. specialize (Hk x r eq_refl). destruct (k r); [discriminate|discriminate|contradiction].
  Qed.
  Lemma run_enough f : forall s c ts F q v, ll1 F s = true -> placed s q v -> progress s = true -> 64 * Z.of_nat (length ts) + cost s <= Z.of_nat f -> run f s c ts <> GFuel.
  Proof.
    induction f as [|f IH]; intros s c ts F q v Hll Hpl Hpg Hf; [pose proof (cost_pos s); lia|].
    destruct s; cbn [GenParser.run ll1 progress cost] in *.
    - destruct ts as [|k ts]; [discriminate|]. destruct (ttype_eqb _ _); discriminate.
    - destruct ts as [|k ts]; [discriminate|]. destruct (la_test _ _); discriminate.
    - destruct (method_placed r) as (w & Hw & _). assert (H : run f (method r) (n :: c) ts <> GFuel).
      { eapply (IH _ _ _ (followr r)); [apply method_ll1|exact Hw|apply method_progress|]. pose proof (method_cost r). lia. }
      destruct (run f (method r) (n :: c) ts); [discriminate|discriminate|contradiction].
    - apply andb_prop in Hll. destruct Hll as [Hl1 Hl2]. apply andb_prop in Hpg. destruct Hpg as [Hg1 Hg2]. inversion Hpl as [| | |? ? ? t ? P1 P2| | | | | | | |]; subst. apply then_fuel.
      + eapply IH; [exact Hl1|exact P1|exact Hg1|lia].
      + intros x r Hr. pose proof (consumed _ _ _ _ _ _ _ _ _ Hl1 P1 Hr). eapply IH; [exact Hl2|exact P2|exact Hg2|lia].
    - destruct (sy _ _); [|discriminate]. destruct (find _ cases) as [c0|] eqn:Hc; [|discriminate]. apply find_some in Hc. destruct Hc as [Hin _].
      inversion Hpl as [| | | |? ? ? _ HFc| | | | | | |]; subst. destruct (In_nth_error _ _ Hin) as (j & Hj). destruct (F2_nth _ _ _ HFc _ _ Hj) as (e & _ & _ & Pc).
      pose proof (fold_max (fun c => cost (snd c)) cases c0 Hin) as Hm. cbv beta in Hm. rewrite forallb_forall in Hpg.
      eapply (IH _ _ _ F); [ |exact Pc|apply Hpg; exact Hin|lia].
      clear -Hll Hin. induction cases as [|c' l IHl]; [destruct Hin|]. rewrite !andb_true_iff in Hll. destruct Hll as ((((_ & _) & Hc) & _) & Hll). destruct Hin as [<-|Hin]; auto.
    - destruct (sy _ _); [|discriminate]. inversion Hpl as [| | | | |? ? ? a b Ho Ps| | | | | |]; subst. rewrite !andb_true_iff in Hll. destruct Hll as [_ Hll]. destruct (la_test _ _); [|discriminate]. eapply IH; [exact Hll|exact Ps|exact Hpg|lia].
    - destruct (sy _ _); [|discriminate]. inversion Hpl as [| | | | | |? ? ? ? _ Hd HFc| | | | |]; subst. destruct (p d _ _) as [[|i]|]; try discriminate. destruct (nth_error alts i) as [s|] eqn:Hn; [|discriminate].
      destruct (F2_nth _ _ _ HFc _ _ Hn) as (e & _ & _ & Ps). apply nth_error_In in Hn.
      pose proof (fold_max cost alts s Hn). rewrite forallb_forall in Hll, Hpg. eapply (IH _ _ _ F); [apply Hll; exact Hn|exact Ps|apply Hpg; exact Hn|lia].
    - destruct (sy _ _); [|discriminate]. inversion Hpl as [| | | | | | |? ? ? a b Hd Ho Ps| | | |]; subst. destruct (p d _ _) as [[|[|i]]|]; try discriminate. eapply IH; [exact Hll|exact Ps|exact Hpg|lia].
    - destruct (sy _ _); [|discriminate]. inversion Hpl as [| | | | | | | | | |? ? ? ? ? Pl|]; subst. apply (IH (LoopLa s m x) _ _ F _ _ Hll Pl Hpg). cbn [cost]. lia.
    - destruct (sy _ _); [|discriminate]. inversion Hpl as [| | | | | | | | | | |? ? ? ? ? Pl]; subst. apply (IH (LoopPred s m d) _ _ F _ _ Hll Pl Hpg). cbn [cost]. lia.
    - assert (Hll0 := Hll). rewrite !andb_true_iff in Hll. destruct Hll as [_ Hll]. assert (Hpg0 := Hpg). apply andb_prop in Hpg. destruct Hpg as [Hm Hg]. apply Z.leb_le in Hm. inversion Hpl as [| | | | | | | |? ? ? ? a b Ps Ho Ha| | |]; subst. apply then_fuel.
      + eapply IH; [exact Hll|exact Ps|exact Hg|lia].
      + intros x0 r Hr. pose proof (consumed _ _ _ _ _ _ _ _ _ Hll Ps Hr). destruct (sy _ _); [|discriminate]. destruct (la_test _ _); [|discriminate]. apply (IH (LoopLa s m x) _ _ F _ _ Hll0 Hpl Hpg0). cbn [cost]. lia.
    - assert (Hpg0 := Hpg). apply andb_prop in Hpg. destruct Hpg as [Hm Hg]. apply Z.leb_le in Hm. inversion Hpl as [| | | | | | | | |? ? ? ? a b Hd Ps Ho Ha| |]; subst. apply then_fuel.
      + eapply IH; [exact Hll|exact Ps|exact Hg|lia].
      + intros x0 r Hr. pose proof (consumed _ _ _ _ _ _ _ _ _ Hll Ps Hr). destruct (sy _ _); [|discriminate]. destruct (p d _ _) as [[|[|i]]|]; try discriminate. apply (IH (LoopPred s m d) _ _ F _ _ Hll Hpl Hpg0). cbn [cost]. lia.
  Qed.

  (** ** The generated parser *)
  Lemma gen_fuel ts : gen_query p sy ts <> GFuel.
  Proof.
    unfold gen_query. destruct (method_placed query) as (w & Hw & _).
    assert (H : run (64 * S (length ts)) (method query) [] ts <> GFuel).
    { apply (run_enough _ _ _ _ [EOF] _ _ (method_ll1 query) Hw (method_progress query)). pose proof (method_cost query) as Hc. cbn [costr] in Hc. lia. }
    destruct (run _ _ _ _); [discriminate|discriminate|contradiction].
  Qed.
  Lemma gen_conforms ts : conforms ts -> exists t, gen_query p sy ts = GOk [t] [] /\ antlr_query ts = Some t.
  Proof.
    intros Hc. destruct (antlr_query_selects _ Hc) as (t & Ht & Hs & _). exists t. split; [|exact Ht]. inversion Hs as [|? ? ? ch ? Hb| | | | | | | |]; subst.
    rewrite <- method_body in Hb. destruct (method_placed query) as (w & Hw & Hst). pose proof (gen_fuel ts) as Hnf. unfold gen_query in *.
    destruct (run_selects (64 * S (length ts)) (method query) [] [] ts ch [] [EOF] _ _ Hb viable_nil follows_nil (method_ll1 query) Hw (pend_end _ Hst)) as [H|H]; rewrite H in *; [reflexivity|contradiction].
  Qed.
  Lemma gen_derives ts x r : gen_query p sy ts = GOk x r -> exists ch, x = [Node query ch] /\ derives (body query) ch /\ ts = flat_map leaves ch ++ r.
  Proof.
    unfold gen_query. intros H. destruct (run _ _ _ _) as [ch rest| |] eqn:Hr; try discriminate. injection H as <- <-. destruct (method_placed query) as (w & Hw & _).
    destruct (run_sound _ _ _ _ _ _ _ _ _ (method_ll1 query) Hw Hr) as [Hd ->]. rewrite method_body in Hd. eauto.
  Qed.
End Correct.
