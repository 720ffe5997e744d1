(** What the network can read next, and that every state of it leads to an end. *)
From Coq Require Import String.
From Verif Require Import Base LexRules Lexer Grammar Antlr GramSpec GramFacts SelFacts Parser GenParser Atn AtnFacts AtnNets GenNet AllStar AllStarFacts AllStarLoop AllStarNet GenFacts Recover RecoverPred RecoverNeed RecoverTerm RecoverInv RecoverSim.
Local Open Scope Z_scope.
Notation fol := (map (follow_of parser_atn)).
Definition some (K : list ebnf) : Prop := exists w, viable K w.

(** ** Every right-hand side derives something *)
Fixpoint prod (e : ebnf) : bool :=
  match e with
  | Tk l => match l with [] => false | _ => true end
  | NT _ => true
  | Sq a b => prod a && prod b
  | Al a b => prod a || prod b
  | Op _ | St _ => true
  | Pl a => prod a
  end.
Definition word (r : rule) : list ttype :=
  match r with
  | query => [REGEXP; EOF]
  | main_query | query_sequence | query_simple | query_implicit | regexp | regexp_pattern => [REGEXP]
  | query_disjunction => [REGEXP; OR; REGEXP]
  | query_group => [L_PAREN; REGEXP; R_PAREN]
  | quantifier => [Q_ONE_OR_MORE]
  | query_segment => [L_SQUARE_BRACKET; R_SQUARE_BRACKET]
  | within_part | within_part_simple => [SIMPLE_WITHIN_SCOPE]
  | expression | expression_basic => [IDENTIFIER; OPERATOR_EQ; REGEXP]
  | expression_or => [IDENTIFIER; OPERATOR_EQ; REGEXP; OR; IDENTIFIER; OPERATOR_EQ; REGEXP]
  | expression_and => [IDENTIFIER; OPERATOR_EQ; REGEXP; AND; IDENTIFIER; OPERATOR_EQ; REGEXP]
  | expression_group => [L_PAREN; IDENTIFIER; OPERATOR_EQ; REGEXP; R_PAREN]
  | expression_not => [NOT; IDENTIFIER; OPERATOR_EQ; REGEXP]
  | attribute | qualifier | identifier => [IDENTIFIER]
  | regexp_flag => [REGEXP_FLAGS]
  end.
Lemma words r : viableb 200 [NT r] (word r) = true.
Proof. destruct r; vm_compute; reflexivity. Qed.
Lemma some_cons e K : some [e] -> some K -> some (e :: K).
Proof. intros (w & Hw) (w' & Hw'). exists (w ++ w'). change (e :: K) with ([e] ++ K). apply viable_app2; assumption. Qed.
Lemma some_nil : some []. Proof. exists []. apply viable_nil. Qed.
Lemma prod_some e : prod e = true -> some [e].
Proof.
  induction e as [l|r|a IHa b IHb|a IHa b IHb|a IHa|a IHa|a IHa]; cbn [prod]; intros H.
  - destruct l as [|t l]; [discriminate|]. exists [t]. exists [Leaf (mkTok t [] 0 0 0 0)]. split; [|reflexivity]. change [Leaf (mkTok t [] 0 0 0 0)] with ([Leaf (mkTok t [] 0 0 0 0)] ++ []). constructor; [constructor; left; reflexivity|constructor].
  - exists (word r). destruct (viableb_sound 200 _ _ (words r) (map (fun ty => mkTok ty [] 0 0 0 0) (word r))) as (fs & Hd & Hl); [rewrite map_map; apply map_id|]. exists fs. split; [exact Hd|]. rewrite Hl, map_map. apply map_id.
  - apply andb_prop in H. destruct H as [H1 H2]. destruct (some_cons a [b] (IHa H1) (IHb H2)) as (w & Hw). exists w. apply viable_sq. exact Hw.
  - apply orb_prop in H. destruct H as [H|H]; [destruct (IHa H) as (w & Hw)|destruct (IHb H) as (w & Hw)]; exists w; apply viable_al; auto.
  - exists []. apply viable_op. right. apply viable_nil.
  - destruct (some_cons a [St a] (IHa H)) as (w & Hw); [exists []; apply viable_st; right; apply viable_nil|]. exists w. apply viable_pl. exact Hw.
  - exists []. apply viable_st. right. apply viable_nil.
Qed.
Lemma prod_cons e K : prod e = true -> some K -> some (e :: K).
Proof. intros H. apply some_cons. apply prod_some. exact H. Qed.

(** ** Every state leads to the end of its rule *)
Definition comp (s : Z) : Prop := forall st, (st = [] -> exists w, reach parser_atn s [] w) /\ (forall f st' w, st = f :: st' -> reach parser_atn f st' w -> exists w', reach parser_atn s st w').
Definition goes (done : list Z) (s : Z) : bool :=
  is_stop parser_atn s || existsb (fun e => AllStarNet.mem (snd e) done &&
    match fst e with RuleT q _ _ => AllStarNet.mem q done | Epsilon => true | l => existsb (fun t => matches parser_atn l (tnum t)) all_ttypes end) (out parser_atn s).
Fixpoint order (k : nat) (todo done : list Z) : list Z :=
  match k with
  | O => done
  | S k => let new := filter (fun s => negb (AllStarNet.mem s done) && goes done s) todo in order k todo (new ++ done)
  end.
Definition all_done : list Z := order 60 states_ [].
Lemma targets_done : forallb (fun e => AllStarNet.mem (snd (snd e)) all_done) (a_edges parser_atn) = true.
Proof. vm_compute. reflexivity. Qed.
Opaque parser_atn.
Lemma comp_stop s : is_stop parser_atn s = true -> comp s.
Proof.
  intros H st. apply is_stop_ok in H. split.
  - intros ->. exists []. apply r_done. exact H.
  - intros f st' w -> Hw. exists w. apply r_ret; assumption.
Qed.
Lemma comp_edge s l t : In (l, t) (out parser_atn s) -> comp t -> match l with RuleT q _ _ => comp q | Epsilon => True | l => exists x, matches parser_atn l (tnum x) = true end -> comp s.
Proof.
  intros Hin Ht Hl st.
  assert (HR : forall w, reach parser_atn t st w -> exists w', reach parser_atn s st w').
  { intros w Hw. destruct l; try (destruct Hl as (y & Hy); apply matches_ok in Hy; exists (y :: w); eapply r_sym; [exact Hin|exact Hy|exact Hw]).
    - exists w. eapply r_silent; [exact Hin|exact I|exact Hw].
    - destruct (proj2 (Hl (t :: st)) t st w eq_refl Hw) as (w' & Hw'). exists w'. eapply r_call; [exact Hin|exact Hw']. }
  split.
  - intros ->. destruct (proj1 (Ht []) eq_refl) as (w & Hw). exact (HR w Hw).
  - intros f st' w E Hw. destruct (proj2 (Ht st) f st' w E Hw) as (w' & Hw'). exact (HR w' Hw').
Qed.
Lemma goes_comp done s : Forall comp done -> goes done s = true -> comp s.
Proof.
  intros HF H. rewrite Forall_forall in HF. unfold goes in H. apply orb_prop in H. destruct H as [H|H]; [apply comp_stop; exact H|]. apply existsb_exists in H. destruct H as ([l t] & Hin & H). cbn [fst snd] in H. apply andb_prop in H. destruct H as [H1 H2].
  apply AllStarNet.mem_ok in H1. apply (comp_edge s l t Hin (HF t H1)). destruct l; try exact I; try (apply existsb_exists in H2; destruct H2 as (y & _ & Hy); exists y; exact Hy). apply HF. apply AllStarNet.mem_ok. exact H2.
Qed.
Lemma order_comp k todo : forall done, Forall comp done -> Forall comp (order k todo done).
Proof.
  induction k as [|k IH]; intros done H; cbn [order]; [exact H|]. apply IH. apply Forall_app. split; [|exact H]. apply Forall_forall. intros s Hs. apply filter_In in Hs. destruct Hs as [_ Hs]. apply andb_prop in Hs. apply (goes_comp done); tauto.
Qed.
Lemma all_done_comp : Forall comp all_done. Proof. unfold all_done. apply order_comp. constructor. Qed.
Opaque all_done.
Lemma target_comp s l t : In (l, t) (out parser_atn s) -> comp t.
Proof.
  intros H. apply out_edge in H. pose proof targets_done as HT. rewrite forallb_forall in HT. specialize (HT _ H). cbn [snd] in HT. apply AllStarNet.mem_ok in HT.
  pose proof all_done_comp as HF. rewrite Forall_forall in HF. apply HF. exact HT.
Qed.
Lemma frames_comp s st s' st' : creach parser_atn s st s' st' -> forall b, st = b -> exists a', (Forall comp a' /\ exists b', st' = a' ++ b' /\ exists d, b = d ++ b').
Proof.
  induction 1 as [s st|s t st s' st' He Hc IH|s q r pr t st s' st' He Hc IH|s f st s' st' Hs Hc IH]; intros b <-.
  - exists []. split; [constructor|]. exists st. split; [reflexivity|exists []; reflexivity].
  - apply IH. reflexivity.
  - destruct (IH _ eq_refl) as (a' & Ha & b' & -> & d & E). destruct d as [|x d]; cbn [app] in E.
    + subst b'. exists (a' ++ [t]). split; [apply Forall_app; split; [exact Ha|constructor; [apply (target_comp _ _ _ He)|constructor]]|]. exists st. rewrite <- app_assoc. split; [reflexivity|exists []; reflexivity].
    + injection E as _ E. exists a'. split; [exact Ha|]. exists b'. split; [reflexivity|exists d; exact E].
  - destruct (IH _ eq_refl) as (a' & Ha & b' & -> & d & E). exists a'. split; [exact Ha|]. exists b'. split; [reflexivity|exists (f :: d); rewrite E; reflexivity].
Qed.
(** A stack from which the end can be reached. *)
Fixpoint ready (st : list Z) : Prop := match st with [] => True | f :: st' => (exists w, reach parser_atn f st' w) /\ ready st' end.
Lemma comp_ready s st : comp s -> ready st -> exists w, reach parser_atn s st w.
Proof.
  intros H HR. destruct st as [|f st]; [exact (proj1 (H []) eq_refl)|]. destruct HR as [(w & Hw) _]. exact (proj2 (H (f :: st)) f st w eq_refl Hw).
Qed.
Lemma ready_app a st : Forall comp a -> ready st -> ready (a ++ st).
Proof. induction 1 as [|f a Hf Ha IH]; intros H; [exact H|]. cbn [app ready]. split; [apply comp_ready; [exact Hf|auto]|auto]. Qed.
Lemma reach_ready s st w : reach parser_atn s st w -> ready st.
Proof.
  induction 1 as [s Hs|s f st w Hs Hr IH|s l t st w Hin Hl Hr IH|s l t st x w Hin Hl Hr IH|s q r pr t st w Hin Hr IH]; cbn [ready]; try exact IH; try exact I.
  - split; [exists w; exact Hr|exact IH].
  - exact (proj2 IH).
Qed.

(** ** The expected tokens are those the network can read next *)
Opaque expected next_has next_eps recovery_set adaptive_predict lookahead set_text.
Opaque inner inner_ok depth.
Lemma next_has_spec n t : next_has parser_atn n t = true <-> exists s' l lab t', creach parser_atn n [] s' l /\ In (lab, t') (out parser_atn s') /\ sym parser_atn lab (tnum t).
Proof.
  Transparent next_has. unfold next_has. Opaque next_has. rewrite existsb_exists. split.
  - intros ([s' l] & Hin & H). cbn [fst] in H. apply existsb_exists in H. destruct H as ([lab t'] & He & Hm). cbn [fst] in Hm. apply matches_ok in Hm. exists s', l, lab, t'. split; [|auto]. exact (proj2 (proj1 (inner_sound parser_atn depth n) _ _ Hin)).
  - intros (s' & l & lab & t' & Hc & He & Hm). exists (s', l). split.
    + refine (proj1 (inner_complete parser_atn net_stop depth n (net_depth n)) _ _ _ Hc). exists lab, t'. split; [exact He|]. destruct lab; cbn in Hm; auto.
    + cbn [fst]. apply existsb_exists. exists (lab, t'). split; [exact He|]. apply matches_ok. exact Hm.
Qed.
Lemma next_eps_spec n : next_eps parser_atn n = true <-> exists e, is_stop parser_atn e = true /\ creach parser_atn n [] e [].
Proof.
  Transparent next_eps. unfold next_eps. Opaque next_eps. pose proof (proj2 (inner_sound parser_atn depth n)) as HS. pose proof (proj2 (inner_complete parser_atn net_stop depth n (net_depth n))) as HC. destruct (snd (inner parser_atn depth n)) as [|e es].
  - split; [discriminate|]. intros (e & H1 & H2). destruct (HC e H1 H2).
  - split; [intros _|reflexivity]. exists e. apply HS. left. reflexivity.
Qed.
Definition can (n : Z) (st : list Z) (t : ttype) : Prop := (exists w, reach parser_atn n st (t :: w)) \/ t = EOF /\ reach parser_atn n st [].
Lemma expected_unfold n c t : expected parser_atn n c t = next_has parser_atn n t || next_eps parser_atn n && after_rule parser_atn c t.
Proof. Transparent expected. reflexivity. Opaque expected. Qed.
Lemma expected_can c : forall n t, ready (fol c) -> (expected parser_atn n c t = true <-> can n (fol c) t).
Proof.
  induction c as [|i c IH]; intros n t HR; rewrite expected_unfold, orb_true_iff, andb_true_iff, next_has_spec, next_eps_spec; cbn [map after_rule].
  - split.
    + intros [(s' & l & lab & t' & Hc & He & Hm)|[(e & He & Hc) H]].
      * left. destruct (frames_comp _ _ _ _ Hc [] eq_refl) as (a' & Ha & b' & -> & d & Hd). symmetry in Hd. apply app_eq_nil in Hd. destruct Hd as [-> ->].
        destruct (comp_ready t' (a' ++ []) (target_comp _ _ _ He)) as (w & Hw); [apply ready_app; [exact Ha|exact I]|]. exists w. eapply creach_reach; [exact Hc|]. eapply r_sym; [exact He|exact Hm|exact Hw].
      * right. unfold ttype_eqb in H. destruct (ttype_eq_dec t EOF) as [E|]; [|discriminate]. split; [exact E|]. eapply creach_reach; [exact Hc|]. apply r_done. apply is_stop_ok. exact He.
    + intros [(w & Hw)|[-> Hw]]; destruct (reach_reads _ _ _ _ Hw) as (s' & st' & Hc & Hr); cbn [reads] in Hr.
      * left. destruct Hr as (lab & t' & He & Hm & _). exists s', st', lab, t'. auto.
      * right. destruct Hr as [Hs ->]. split; [exists s'; auto|reflexivity].
  - destruct HR as [(w0 & Hw0) HR]. specialize (IH (follow_of parser_atn i) t HR). rewrite expected_unfold in IH. split.
    + intros [(s' & l & lab & t' & Hc & He & Hm)|[(e & He & Hc) H]].
      * left. destruct (frames_comp _ _ _ _ Hc [] eq_refl) as (a' & Ha & b' & -> & d & Hd). symmetry in Hd. apply app_eq_nil in Hd. destruct Hd as [-> ->]. rewrite app_nil_r in Hc.
        destruct (comp_ready t' (a' ++ follow_of parser_atn i :: fol c) (target_comp _ _ _ He)) as (w & Hw); [apply ready_app; [exact Ha|split; [exists w0; exact Hw0|exact HR]]|]. exists w. eapply creach_reach; [exact (creach_lift _ _ _ _ _ _ Hc)|]. eapply r_sym; [exact He|exact Hm|exact Hw].
      * apply IH in H. apply is_stop_ok in He. assert (HW : forall w, reach parser_atn (follow_of parser_atn i) (fol c) w -> reach parser_atn n (follow_of parser_atn i :: fol c) w).
        { intros w Hw. eapply creach_reach; [exact (creach_lift _ _ _ _ _ _ Hc)|]. apply r_ret; assumption. }
        destruct H as [(w & Hw)|[E Hw]]; [left; exists w; auto|right; auto].
    + assert (HG : forall w s' st', reads parser_atn s' st' w -> creach parser_atn n (follow_of parser_atn i :: fol c) s' st' -> (exists a', st' = a' ++ follow_of parser_atn i :: fol c /\ creach parser_atn n [] s' a') \/ (exists e, is_stop parser_atn e = true /\ creach parser_atn n [] e []) /\ reach parser_atn (follow_of parser_atn i) (fol c) w).
      { intros w s' st' Hr Hc. destruct (creach_app _ _ _ _ _ Hc [] _ eq_refl) as [(a' & E & H)|(e & f & b' & H1 & H2 & E & H4)]; [left; exists a'; auto|]. injection E as <- <-. right. split; [exists e; auto|]. eapply creach_reach; [exact H4|]. apply reads_reach. exact Hr. }
      intros [(w & Hw)|[-> Hw]]; destruct (reach_reads _ _ _ _ Hw) as (s' & st' & Hc & Hr); (destruct (HG _ _ _ Hr Hc) as [(a' & -> & Ha)|[He Hf]]).
      * left. destruct Hr as (lab & t' & Hi & Hm & _). exists s', a', lab, t'. auto.
      * right. split; [exact He|]. apply IH. left. exists w. exact Hf.
      * destruct Hr as [_ E]. destruct a'; discriminate.
      * right. split; [exact He|]. apply IH. right. auto.
Qed.

