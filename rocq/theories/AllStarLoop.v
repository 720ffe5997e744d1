(** Adaptive prediction: closures, and the two simulation loops. *)
From Verif Require Import Base LexRules Lexer Grammar Antlr GenParser Atn AllStar AllStarFacts.
Local Open Scope Z_scope.

Lemma list_eqb_ok a : forall b, list_eqb a b = true <-> a = b.
Proof.
  induction a as [|x a IH]; intros [|y b]; cbn [list_eqb]; try (split; [discriminate|intros; discriminate]); [split; reflexivity|].
  rewrite andb_true_iff, IH, Z.eqb_eq. split; [intros [-> ->]; reflexivity|intros H; injection H as -> ->; auto].
Qed.

(** ** Sets of configurations *)
Definition has (ks : list conf) (s : Z) (a : nat) (st : list Z) : Prop := exists o, In (mkConf s a st o) ks.
Lemma has_in ks k : In k ks -> has ks (k_state k) (k_alt k) (k_ctx k).
Proof. intros H. exists (k_outer k). destruct k. exact H. Qed.
Lemma has_app a b s i st : has (a ++ b) s i st <-> has a s i st \/ has b s i st.
Proof.
  unfold has. split.
  - intros [o H]. apply in_app_or in H. destruct H as [H|H]; [left|right]; exists o; exact H.
  - intros [[o H]|[o H]]; exists o; apply in_or_app; auto.
Qed.
Lemma has_nil s i st : ~ has [] s i st.
Proof. intros [o []]. Qed.
Lemma has_filter g ks s i st : has (filter (fun k => g (k_state k)) ks) s i st <-> has ks s i st /\ g s = true.
Proof.
  unfold has. split.
  - intros [o H]. apply filter_In in H. destruct H as [H1 H2]. split; [exists o; exact H1|exact H2].
  - intros [[o H1] H2]. exists o. apply filter_In. split; [exact H1|exact H2].
Qed.
Lemma same_conf_ok a b : same_conf a b = true <-> k_state a = k_state b /\ k_alt a = k_alt b /\ k_ctx a = k_ctx b.
Proof. unfold same_conf. rewrite !andb_true_iff, Z.eqb_eq, Nat.eqb_eq, list_eqb_ok. tauto. Qed.
Lemma has_add k ks s i st : has (add k ks) s i st <-> k_state k = s /\ k_alt k = i /\ k_ctx k = st \/ has ks s i st.
Proof.
  induction ks as [|k' ks IH]; cbn [add].
  - split.
    + intros [o [H|[]]]. left. subst k. auto.
    + intros [(<- & <- & <-)|H]; [exists (k_outer k); left; destruct k; reflexivity|destruct (has_nil _ _ _ H)].
  - destruct (same_conf k k') eqn:E.
    + apply same_conf_ok in E. destruct E as (E1 & E2 & E3). split.
      * intros [o [H|H]]; [injection H as <- <- <- _; right; exists (k_outer k'); left; destruct k'; reflexivity|right; exists o; right; exact H].
      * intros [(<- & <- & <-)|[o [H|H]]].
        -- eexists. left. rewrite E1, E2, E3. reflexivity.
        -- subst k'. eexists. left. reflexivity.
        -- exists o. right. exact H.
    + change (k' :: add k ks) with ([k'] ++ add k ks). change (k' :: ks) with ([k'] ++ ks). rewrite !has_app, IH. tauto.
Qed.
Lemma has_fold ks : forall r s i st, has (fold_left (fun r k => add k r) ks r) s i st <-> has ks s i st \/ has r s i st.
Proof.
  induction ks as [|k ks IH]; intros r s i st; cbn [fold_left].
  - split; [auto|]. intros [H|H]; [destruct (has_nil _ _ _ H)|exact H].
  - rewrite IH, has_add. change (k :: ks) with ([k] ++ ks). rewrite has_app. split.
    + intros [H|[(<- & <- & <-)|H]]; auto. left. left. exists (k_outer k). left. destruct k. reflexivity.
    + intros [[[o [H|[]]]|H]|H]; auto. right. left. subst k. auto.
Qed.
Lemma has_collect ks s i st : has (collect ks) s i st <-> has ks s i st.
Proof. unfold collect. rewrite has_fold. split; [intros [H|H]; [exact H|destruct (has_nil _ _ _ H)]|auto]. Qed.
Lemma has_flat {X} (g : X -> list conf) l s i st : has (flat_map g l) s i st <-> exists x, In x l /\ has (g x) s i st.
Proof.
  unfold has. split.
  - intros [o H]. apply in_flat_map in H. destruct H as (x & H1 & H2). exists x. eauto.
  - intros (x & H1 & o & H2). exists o. apply in_flat_map. eauto.
Qed.
Lemma unique_ok ks a : unique_alt ks = Some a -> forall k, In k ks -> k_alt k = a.
Proof.
  destruct ks as [|k0 r]; [discriminate|]. cbn [unique_alt]. destruct (forallb _ r) eqn:H; [|discriminate]. intros E k [<-|Hi]; [congruence|].
  rewrite forallb_forall in H. specialize (H _ Hi). apply Nat.eqb_eq in H. congruence.
Qed.
Lemma unique_in ks a : unique_alt ks = Some a -> exists k, In k ks /\ k_alt k = a.
Proof.
  destruct ks as [|k0 r]; [discriminate|]. cbn [unique_alt]. destruct (forallb _ r); [|discriminate]. intros E. exists k0. split; [left; reflexivity|congruence].
Qed.

Section Net.
  Variable A : atn.
  Notation out := (out A).
  Notation is_stop := (is_stop A).
  Notation rule_of := (rule_of A).
  Notation follows := (follows A).
  Notation inner := (inner A).
  Notation creach := (creach A).
  Notation reads := (reads A).
  Notation live := (live A).
  Variable Hstop : forall s, is_stop s = true -> out s = [].
  Variable Hdepth : forall s, inner_ok A depth s = true.
  Variable Hrule : forall s l t, In (l, t) (out s) -> rule_of t = rule_of s.
  Variable Hcall : forall s q r pr t, In (RuleT q r pr, t) (out s) -> rule_of q = r.
  Variable Hchase : forall e, is_stop e = true -> incl (follows e) (chased A e) /\
    forall t e' f, In t (chased A e) -> In e' (snd (inner depth t)) -> In f (follows e') -> In f (chased A e).
  Variable Huniq : forall e e', is_stop e = true -> is_stop e' = true -> follows e = [] -> follows e' = [] -> e = e'.

  Lemma in_sound s : (forall s' l, In (s', l) (fst (inner depth s)) -> AllStarFacts.rd A s' /\ creach s [] s' l) /\
    (forall e, In e (snd (inner depth s)) -> is_stop e = true /\ creach s [] e []).
  Proof. apply inner_sound. Qed.
  Lemma in_complete s : (forall s' l, AllStarFacts.rd A s' -> creach s [] s' l -> In (s', l) (fst (inner depth s))) /\
    (forall e, is_stop e = true -> creach s [] e [] -> In e (snd (inner depth s))).
  Proof. apply inner_complete; auto. Qed.
  Lemma stop_reach s st s' st' : is_stop s = true -> creach s st s' st' -> s' = s /\ st' = st \/ exists f b, st = f :: b /\ creach f b s' st'.
  Proof.
    intros Hs H. pose proof (Hstop s Hs) as Ho. inversion H as [|? t ? ? ? Hin Hc|? q r pr t ? ? ? Hin Hc|? f b ? ? H1 H2]; subst; [left; auto|rewrite Ho in Hin; contradiction..|]. right. eauto.
  Qed.

  (** ** The full context *)
  Lemma close_true st : forall s s' st' o, In (s', st', o) (close A true s st) <-> o = false /\ live s' st' /\ creach s st s' st'.
  Proof.
    induction st as [|f st IH]; intros s s' st' o; cbn [close]; rewrite in_app_iff.
    - split.
      + intros [H|H].
        * apply in_map_iff in H. destruct H as ([s1 l1] & E & H). cbn [fst snd] in E. injection E as <- <- <-. rewrite app_nil_r.
          apply (proj1 (in_sound s)) in H. split; [reflexivity|]. split; [left; tauto|tauto].
        * destruct (snd (inner depth s)) as [|e0 es] eqn:He; [contradiction|]. apply in_flat_map in H. destruct H as (e & Hi & H). destruct H as [H|[]]. injection H as <- <- <-.
          rewrite <- He in Hi. apply (proj2 (in_sound s)) in Hi. split; [reflexivity|]. split; [right; tauto|tauto].
      + intros (-> & [Hr|[Hs ->]] & H).
        * left. apply in_map_iff. exists (s', st'). cbn [fst snd]. rewrite app_nil_r. split; [reflexivity|]. apply (proj1 (in_complete s)); assumption.
        * right. apply (proj2 (in_complete s)) in H; [|exact Hs]. destruct (snd (inner depth s)) as [|e0 es]; [contradiction|]. apply in_flat_map. exists s'. split; [exact H|left; reflexivity].
    - split.
      + intros [H|H].
        * apply in_map_iff in H. destruct H as ([s1 l1] & E & H). cbn [fst snd] in E. injection E as <- <- <-.
          apply (proj1 (in_sound s)) in H. destruct H as [H1 H2]. split; [reflexivity|]. split; [left; exact H1|]. apply (creach_lift _ _ _ _ _ (f :: st)) in H2. exact H2.
        * destruct (snd (inner depth s)) as [|e0 es] eqn:He; [contradiction|]. apply IH in H. destruct H as (-> & H1 & H2). split; [reflexivity|]. split; [exact H1|].
          destruct (proj2 (in_sound s) e0) as [H3 H4]; [rewrite He; left; reflexivity|]. eapply creach_trans; [exact (creach_lift _ _ _ _ _ (f :: st) H4)|]. apply cr_ret; assumption.
      + intros (-> & Hl & H). destruct (creach_app _ _ _ _ _ H [] (f :: st) eq_refl) as [(a' & -> & H2)|(e & g & b' & H1 & H2 & E & H4)].
        * left. destruct Hl as [Hr|[_ E]]; [|destruct a'; discriminate]. apply in_map_iff. exists (s', a'). split; [reflexivity|]. apply (proj1 (in_complete s)); assumption.
        * right. injection E as <- <-. apply (proj2 (in_complete s)) in H2; [|exact H1]. destruct (snd (inner depth s)) as [|e0 es]; [contradiction|]. apply IH. auto.
  Qed.

  (** ** Unknown callers *)
  Fixpoint legit (s : Z) (st : list Z) : Prop :=
    match st with [] => follows s = [] | f :: st' => In f (follows s) /\ legit f st' end.
  Lemma follows_rule s t : rule_of s = rule_of t -> follows s = follows t.
  Proof. intros E. unfold AllStar.follows. rewrite E. reflexivity. Qed.
  Lemma legit_rule s t st : rule_of s = rule_of t -> legit s st -> legit t st.
  Proof. intros E. destruct st; cbn [legit]; rewrite (follows_rule _ _ E); auto. Qed.
  Lemma follows_call s q r pr t : In (RuleT q r pr, t) (out s) -> In t (follows q).
  Proof.
    intros H. pose proof (Hcall _ _ _ _ _ H) as E. unfold Atn.out in H. apply in_map_iff in H. destruct H as ([s0 [l0 t0]] & E0 & H). cbn [snd] in E0. injection E0 as -> ->.
    apply filter_In in H. destruct H as [H _]. unfold AllStar.follows. apply in_flat_map. eexists. split; [exact H|]. cbn [fst snd]. rewrite E, Z.eqb_refl. left. reflexivity.
  Qed.
  Lemma legit_creach s st s' st' : creach s st s' st' -> legit s st -> legit s' st'.
  Proof.
    induction 1 as [s st|s t st s' st' He Hc IH|s q r pr t st s' st' He Hc IH|s f st s' st' Hs Hc IH]; intros Hl.
    - exact Hl.
    - apply IH. eapply legit_rule; [|exact Hl]. symmetry. eapply Hrule. exact He.
    - apply IH. cbn [legit]. split; [eapply follows_call; exact He|]. eapply legit_rule; [|exact Hl]. symmetry. eapply Hrule. exact He.
    - apply IH. exact (proj2 Hl).
  Qed.
  Lemma chased_complete e : is_stop e = true -> forall b t s' st', In t (chased A e) -> legit t b -> creach t b s' st' -> live s' st' ->
    exists l b' o, st' = l ++ b' /\ In (s', l, o) (after A e).
  Proof.
    intros He. destruct (Hchase e He) as [_ Hcl]. induction b as [|f b IH]; intros t s' st' Ht Hl Hc Hlv.
    - exists st', [], true. split; [symmetry; apply app_nil_r|]. unfold after. apply in_or_app. right. apply in_flat_map. exists t. split; [exact Ht|]. apply in_or_app.
      destruct Hlv as [Hr|[Hs ->]].
      + left. apply in_map_iff. exists (s', st'). split; [reflexivity|]. apply (proj1 (in_complete t)); assumption.
      + right. apply in_flat_map. exists s'. split; [apply (proj2 (in_complete t)); assumption|]. pose proof (legit_creach _ _ _ _ Hc Hl) as Hf. cbn [legit] in Hf. rewrite Hf. left. reflexivity.
    - destruct (creach_app _ _ _ _ _ Hc [] (f :: b) eq_refl) as [(a' & -> & H2)|(e' & g & b' & H1 & H2 & E & H4)].
      + destruct Hlv as [Hr|[_ E]]; [|destruct a'; discriminate]. exists a', (f :: b), true. split; [reflexivity|]. unfold after. apply in_or_app. right. apply in_flat_map. exists t. split; [exact Ht|].
        apply in_or_app. left. apply in_map_iff. exists (s', a'). split; [reflexivity|]. apply (proj1 (in_complete t)); assumption.
      + injection E as <- <-. apply (IH f s' st'); [|exact (proj2 Hl)|exact H4|exact Hlv]. apply (Hcl t e' f Ht).
        * apply (proj2 (in_complete t)); assumption.
        * pose proof (legit_creach _ _ _ _ (creach_lift _ _ _ _ _ (f :: b) H2) Hl) as [Hf _]. exact Hf.
  Qed.
  Lemma after_complete e b s' st' : is_stop e = true -> legit e b -> creach e b s' st' -> live s' st' ->
    exists l b' o, st' = l ++ b' /\ In (s', l, o) (after A e).
  Proof.
    intros He Hl Hc Hlv. destruct (stop_reach _ _ _ _ He Hc) as [[-> ->]|(f & b' & -> & Hc')].
    - destruct Hlv as [(l & t & Hi & _)|[_ ->]]; [rewrite (Hstop e He) in Hi; contradiction|]. exists [], [], false. split; [reflexivity|]. unfold after. cbn [legit] in Hl. rewrite Hl. left. reflexivity.
    - destruct Hl as [Hf Hl]. destruct (Hchase e He) as [Hi _]. eapply chased_complete; [exact He|apply Hi; exact Hf|exact Hl|exact Hc'|exact Hlv].
  Qed.
  Lemma close_false l : forall b s s' st', legit s (l ++ b) -> creach s (l ++ b) s' st' -> live s' st' ->
    exists l' b' o, st' = l' ++ b' /\ In (s', l', o) (close A false s l).
  Proof.
    induction l as [|f l IH]; intros b s s' st' Hl Hc Hlv; cbn [close].
    - cbn [app] in Hl, Hc. destruct (creach_app _ _ _ _ _ Hc [] b eq_refl) as [(a' & -> & H2)|(e & g & b' & H1 & H2 & -> & H4)].
      + destruct Hlv as [Hr|[Hs E]].
        * exists a', b, false. split; [reflexivity|]. apply in_or_app. left. apply in_map_iff. exists (s', a'). split; [cbn [fst snd]; rewrite app_nil_r; reflexivity|]. apply (proj1 (in_complete s)); assumption.
        * apply app_eq_nil in E. destruct E as [-> ->].
          destruct (after_complete s' [] s' [] Hs) as (l' & b' & o & E & Hin); [exact (legit_creach _ _ _ _ Hc Hl)|apply cr_refl|right; auto|].
          exists l', b', o. split; [exact E|]. apply in_or_app. right. apply (proj2 (in_complete s)) in H2; [|exact Hs]. destruct (snd (inner depth s)) as [|e0 es]; [contradiction|].
          apply in_flat_map. exists s'. split; [exact H2|exact Hin].
      + pose proof (legit_creach _ _ _ _ (creach_lift _ _ _ _ _ (g :: b') H2) Hl) as Hl2. cbn [app] in Hl2.
        destruct (after_complete e (g :: b') s' st' H1 Hl2) as (l' & b0 & o & E & Hin); [apply cr_ret; assumption|exact Hlv|].
        exists l', b0, o. split; [exact E|]. apply in_or_app. right. apply (proj2 (in_complete s)) in H2; [|exact H1]. destruct (snd (inner depth s)) as [|e0 es]; [contradiction|].
        apply in_flat_map. exists e. split; [exact H2|exact Hin].
    - cbn [app] in Hl, Hc. destruct (creach_app _ _ _ _ _ Hc [] (f :: l ++ b) eq_refl) as [(a' & -> & H2)|(e & g & b' & H1 & H2 & E & H4)].
      + destruct Hlv as [Hr|[_ E]]; [|destruct a'; discriminate]. exists (a' ++ f :: l), b, false. split; [rewrite <- app_assoc; reflexivity|]. apply in_or_app. left.
        apply in_map_iff. exists (s', a'). split; [reflexivity|]. apply (proj1 (in_complete s)); assumption.
      + injection E as <- <-. pose proof (legit_creach _ _ _ _ (creach_lift _ _ _ _ _ (f :: l ++ b) H2) Hl) as [_ Hl2]. cbn [app] in Hl2.
        destruct (IH b f s' st' Hl2 H4 Hlv) as (l' & b0 & o & E & Hin). exists l', b0, o. split; [exact E|]. apply in_or_app. right.
        apply (proj2 (in_complete s)) in H2; [|exact H1]. destruct (snd (inner depth s)) as [|e0 es]; [contradiction|]. exact Hin.
  Qed.
  (** Both modes at once. *)
  Lemma close_complete full l b s s' st' : legit s (l ++ b) -> creach s (l ++ b) s' st' -> live s' st' -> (full = true -> b = []) ->
    exists l' b' o, st' = l' ++ b' /\ In (s', l', o) (close A full s l) /\ (full = true -> b' = []).
  Proof.
    intros Hl Hc Hlv Hb. destruct full.
    - specialize (Hb eq_refl). subst b. rewrite app_nil_r in Hc. exists st', [], false. split; [symmetry; apply app_nil_r|]. split; [|reflexivity]. apply close_true. auto.
    - destruct (close_false l b s s' st' Hl Hc Hlv) as (l' & b' & o & E & Hin). exists l', b', o. split; [exact E|]. split; [exact Hin|discriminate].
  Qed.
  Lemma has_closure full k s i st : has (closure A full k) s i st <-> k_alt k = i /\ exists o, In (s, st, o) (close A full (k_state k) (k_ctx k)).
  Proof.
    unfold has, closure. split.
    - intros [o H]. apply in_map_iff in H. destruct H as ([[s1 l1] o1] & E & H). cbn [fst snd] in E. injection E as <- <- <- _. split; [reflexivity|]. exists o1. exact H.
    - intros [<- [o H]]. eexists. apply in_map_iff. exists (s, st, o). split; [reflexivity|exact H].
  Qed.
  Lemma has_closures full ks s i st : has (flat_map (closure A full) ks) s i st <-> exists s0 st0 o, has ks s0 i st0 /\ In (s, st, o) (close A full s0 st0).
  Proof.
    rewrite has_flat. split.
    - intros (k & Hk & H). apply has_closure in H. destruct H as [<- [o H]]. exists (k_state k), (k_ctx k), o. split; [apply has_in; exact Hk|exact H].
    - intros (s0 & st0 & o & [o0 H0] & H). eexists. split; [exact H0|]. apply has_closure. cbn [k_alt k_state k_ctx]. split; [reflexivity|]. exists o. exact H.
  Qed.
  Lemma has_starts full st l : forall n s i st', has (starts A full st n l) s i st' <-> exists j t o, nth_error l j = Some t /\ i = (n + j)%nat /\ In (s, st', o) (close A full t st).
  Proof.
    induction l as [|t l IH]; intros n s i st'; cbn [starts].
    - split; [intros H; destruct (has_nil _ _ _ H)|]. intros (j & t & o & H & _). destruct j; discriminate.
    - rewrite has_app, has_closure, IH. cbn [k_alt k_state k_ctx]. split.
      + intros [[<- [o H]]|(j & t' & o & Hn & -> & H)].
        * exists O, t, o. split; [reflexivity|]. split; [lia|exact H].
        * exists (S j), t', o. split; [exact Hn|]. split; [lia|exact H].
      + intros ([|j] & t' & o & Hn & -> & H); cbn [nth_error] in Hn.
        * injection Hn as ->. left. split; [lia|]. exists o. exact H.
        * right. exists j, t', o. split; [exact Hn|]. split; [lia|exact H].
  Qed.
  Lemma has_moves x ks s i st : has (flat_map (move A x) ks) s i st <-> exists s0 l, has ks s0 i st /\ In (l, s) (out s0) /\ sym A l x.
  Proof.
    rewrite has_flat. unfold has, move. split.
    - intros (k & Hk & o & H). apply in_map_iff in H. destruct H as ([l t] & E & H). cbn [fst snd] in E. injection E as <- <- <- <-. apply filter_In in H. cbn [fst] in H.
      exists (k_state k), l. split; [exists (k_outer k); destruct k; exact Hk|]. split; [tauto|]. apply matches_ok. tauto.
    - intros (s0 & l & [o H0] & H1 & H2). eexists. split; [exact H0|]. exists o. apply in_map_iff. exists (l, s). cbn [fst snd k_alt k_ctx k_outer k_state]. split; [reflexivity|].
      apply filter_In. split; [exact H1|]. apply matches_ok. exact H2.
  Qed.

  (** ** One step *)
  Variable V : nat -> Prop.               (* the alternatives that lead to the end of the input *)
  Definition cov (full : bool) (ks : list conf) (w : list ttype) : Prop :=
    forall a, V a -> exists s l b, has ks s a l /\ legit s (l ++ b) /\ reads s (l ++ b) w /\ (full = true -> b = []).
  Definition snd_ (ks : list conf) (w : list ttype) : Prop := forall s a st, has ks s a st -> reads s st w -> V a.
  Definition wf (ks : list conf) : Prop := forall s a st, has ks s a st -> legit s st /\ (is_stop s = true -> st = []).
  Definition skipped_of (full : bool) (ks : list conf) (x : Z) : list conf := if full || (x =? -1) then filter (fun k => is_stop (k_state k)) ks else [].
  Definition inter_of (ks : list conf) (x : Z) : list conf := collect (flat_map (move A x) (filter (fun k => negb (is_stop (k_state k))) ks)).
  Lemma has_inter ks x s i st : has (inter_of ks x) s i st <-> exists s0 l, has ks s0 i st /\ In (l, s) (out s0) /\ sym A l x.
  Proof. clear V.
    unfold inter_of. rewrite has_collect, has_moves. split.
    - intros (s0 & l & H & H1). apply (has_filter (fun s => negb (is_stop s))) in H. exists s0, l. tauto.
    - intros (s0 & l & H & H1 & H2). exists s0, l. split; [|auto]. apply (has_filter (fun s => negb (is_stop s))). split; [exact H|]. destruct (is_stop s0) eqn:Hs; [|reflexivity].
      rewrite (Hstop _ Hs) in H1. contradiction.
  Qed.
  (** Either the step stopped early because one alternative was left, or it closed. *)
  Lemma reach_set_cases full ks x :
    (exists a, unique_alt (inter_of ks x) = Some a /\ reach_set A full ks x = inter_of ks x) \/
    (let r := collect (flat_map (closure A full) (inter_of ks x)) in
     let r := if x =? -1 then filter (fun k => is_stop (k_state k)) r else r in
     exists r', reach_set A full ks x = r ++ r' /\ (r' = [] \/ r' = skipped_of full ks x /\ (full = true -> forall k, In k r -> is_stop (k_state k) = false))).
  Proof. clear V.
    unfold reach_set. fold (inter_of ks x). fold (skipped_of full ks x). cbv zeta.
    assert (HC : forall r, exists r', (if negb full || negb (existsb (fun k => is_stop (k_state k)) r) then r ++ skipped_of full ks x else r) = r ++ r' /\
       (r' = [] \/ r' = skipped_of full ks x /\ (full = true -> forall k, In k r -> is_stop (k_state k) = false))).
    { intros r. destruct (negb full || negb (existsb (fun k => is_stop (k_state k)) r)) eqn:E; [|exists []; split; [symmetry; apply app_nil_r|left; reflexivity]].
      eexists. split; [reflexivity|]. right. split; [reflexivity|]. intros -> k Hk. cbn [negb orb] in E. destruct (is_stop (k_state k)) eqn:Hs; [|reflexivity]. exfalso.
      assert (Hx : existsb (fun k => is_stop (k_state k)) r = true) by (apply existsb_exists; eauto). rewrite Hx in E. discriminate. }
    destruct (skipped_of full ks x) as [|k0 sk] eqn:Hsk; [|right; apply HC].
    destruct (x =? -1) eqn:Hx; [right; apply HC|].
    destruct (unique_alt (inter_of ks x)) as [a|] eqn:Hu; [|right; apply HC]. left. exists a. split; [reflexivity|]. rewrite app_nil_r. destruct (negb full || _); reflexivity.
  Qed.
  Lemma sym_step x w' full ks : cov full ks (x :: w') -> forall a, V a -> exists s l b, has (inter_of ks (tnum x)) s a l /\ legit s (l ++ b) /\ reach A s (l ++ b) w' /\ (full = true -> b = []).
  Proof.
    intros Hc a Ha. destruct (Hc a Ha) as (s & l & b & Hh & Hl & (lab & t' & Hin & Hsym & Hr) & Hb). exists t', l, b. split; [apply has_inter; eauto|].
    split; [eapply legit_rule; [|exact Hl]; symmetry; eapply Hrule; exact Hin|]. auto.
  Qed.
  Lemma step_closed full ks x w' : cov full ks (x :: w') -> (x = EOF -> w' = []) ->
    cov full (let r := collect (flat_map (closure A full) (inter_of ks (tnum x))) in if tnum x =? -1 then filter (fun k => is_stop (k_state k)) r else r) w'.
  Proof.
    intros Hc Hx a Ha. destruct (sym_step x w' full ks Hc a Ha) as (s & l & b & Hh & Hl & Hr & Hb).
    destruct (reach_reads _ _ _ _ Hr) as (s' & st' & Hcr & Hrd). pose proof (reads_live _ _ _ _ Hrd) as Hlv.
    destruct (close_complete full l b s s' st' Hl Hcr Hlv Hb) as (l' & b' & o & -> & Hin & Hb'). exists s', l', b'.
    assert (Hh' : has (collect (flat_map (closure A full) (inter_of ks (tnum x)))) s' a l') by (apply has_collect, has_closures; eauto).
    split; [|split; [exact (legit_creach _ _ _ _ Hcr Hl)|auto]]. cbv zeta. destruct (tnum x =? -1) eqn:E; [|exact Hh'].
    apply has_filter. split; [exact Hh'|]. assert (x = EOF) by (destruct x; cbn in E; congruence). rewrite (Hx H) in Hrd. exact (proj1 Hrd).
  Qed.
  Lemma step_cov full ks x w' : cov full ks (x :: w') -> (x = EOF -> w' = []) ->
    (forall a, V a -> exists k, In k (reach_set A full ks (tnum x)) /\ k_alt k = a) /\
    (unique_alt (reach_set A full ks (tnum x)) = None -> cov full (reach_set A full ks (tnum x)) w').
  Proof.
    intros Hc Hx. destruct (reach_set_cases full ks (tnum x)) as [(a0 & Hu & ->)|H].
    - split; [|intros E; rewrite E in Hu; discriminate]. intros a Ha. destruct (sym_step x w' full ks Hc a Ha) as (s & l & b & [o Hh] & _). eauto.
    - cbv zeta in H. destruct H as (r' & -> & _). pose proof (step_closed full ks x w' Hc Hx) as Hcl. cbv zeta in Hcl. split.
      + intros a Ha. destruct (Hcl a Ha) as (s & l & b & [o Hh] & _). eexists. split; [apply in_or_app; left; exact Hh|reflexivity].
      + intros _ a Ha. destruct (Hcl a Ha) as (s & l & b & Hh & Hr). exists s, l, b. split; [apply has_app; left; exact Hh|exact Hr].
  Qed.
  Lemma has_if (b : bool) f ks s i st : has (if b then filter f ks else ks) s i st -> has ks s i st.
  Proof. clear V. destruct b; [|auto]. intros [o H]. apply filter_In in H. exists o. tauto. Qed.
  Lemma step_snd ks x w' : cov true ks (x :: w') -> snd_ ks (x :: w') -> (exists a, V a) -> (x = EOF -> w' = []) -> (w' = [] -> x = EOF) ->
    unique_alt (reach_set A true ks (tnum x)) = None -> snd_ (reach_set A true ks (tnum x)) w'.
  Proof.
    intros Hc Hs [a0 Ha0] Hx Hx' Hu. destruct (reach_set_cases true ks (tnum x)) as [(a1 & Hu' & E)|H]; [rewrite E in Hu; congruence|]. cbv zeta in H. destruct H as (r' & -> & Hr').
    pose proof (step_closed true ks x w' Hc Hx) as Hcl. cbv zeta in Hcl. intros s a st Hh Hrd. apply has_app in Hh. destruct Hh as [Hh|Hh].
    - apply has_if, has_collect, has_closures in Hh. destruct Hh as (s0 & st0 & o & Hi & Hcl0). apply close_true in Hcl0. destruct Hcl0 as (_ & _ & Hcr).
      apply has_inter in Hi. destruct Hi as (s1 & l & H1 & H2 & H3). apply (Hs s1 a st0 H1). exists l, s0. split; [exact H2|]. split; [exact H3|]. eapply creach_reach; [exact Hcr|]. apply reads_reach. exact Hrd.
    - destruct Hr' as [->|[-> Hns]]; [destruct (has_nil _ _ _ Hh)|]. specialize (Hns eq_refl). unfold skipped_of in Hh. cbn [orb] in Hh. apply has_filter in Hh. destruct Hh as [Hh Hst].
      destruct w' as [|y w']; [|destruct Hrd as (l & t & Hin & _); rewrite (Hstop _ Hst) in Hin; contradiction].
      exfalso. destruct (Hcl a0 Ha0) as (s1 & l1 & b1 & [o1 Hh1] & _ & Hr1 & Hb1). specialize (Hns _ Hh1). cbn [k_state] in Hns. rewrite (proj1 Hr1) in Hns. discriminate.
  Qed.
  Lemma step_wf ks x : wf ks -> unique_alt (reach_set A true ks x) = None -> wf (reach_set A true ks x).
  Proof.
    intros Hw Hu. destruct (reach_set_cases true ks x) as [(a1 & Hu' & E)|H]; [rewrite E in Hu; congruence|]. cbv zeta in H. destruct H as (r' & -> & Hr').
    intros s a st Hh. apply has_app in Hh. destruct Hh as [Hh|Hh].
    - apply has_if, has_collect, has_closures in Hh. destruct Hh as (s0 & st0 & o & Hi & Hcl0). apply close_true in Hcl0. destruct Hcl0 as (_ & Hlv & Hcr).
      apply has_inter in Hi. destruct Hi as (s1 & l & H1 & H2 & H3). split.
      + eapply legit_creach; [exact Hcr|]. eapply legit_rule; [|exact (proj1 (Hw _ _ _ H1))]. symmetry. eapply Hrule. exact H2.
      + intros Hst. destruct Hlv as [(l' & t' & Hin & _)|[_ E]]; [rewrite (Hstop _ Hst) in Hin; contradiction|exact E].
    - destruct Hr' as [->|[-> _]]; [destruct (has_nil _ _ _ Hh)|]. unfold skipped_of in Hh. cbn [orb] in Hh. apply has_filter in Hh. apply (Hw s a st). tauto.
  Qed.
  (** After EOF only stop states are left. *)
  Lemma step_eof full ks : unique_alt (reach_set A full ks (-1)) = None -> forall k, In k (reach_set A full ks (-1)) -> is_stop (k_state k) = true.
  Proof. clear V.
    intros Hu k Hk. destruct (reach_set_cases full ks (-1)) as [(a1 & Hu' & E)|H]; [rewrite E in Hu; congruence|]. cbv zeta in H. cbn [Z.eqb] in H. destruct H as (r' & E & Hr').
    rewrite E in Hk. apply in_app_or in Hk. destruct Hk as [Hk|Hk]; [apply filter_In in Hk; tauto|]. destruct Hr' as [->|[-> _]]; [contradiction|].
    unfold skipped_of in Hk. destruct (full || _); [apply filter_In in Hk; tauto|contradiction].
  Qed.

  (** ** Conflicts *)
  Lemma min_alt_in l : l <> [] -> In (min_alt l) l.
  Proof. clear V.
    destruct l as [|a r]; [intros H; contradiction|]. intros _. cbn [min_alt]. assert (H : In (fold_right Nat.min a r) (a :: r)); [|exact H].
    induction r as [|b r IH]; [left; reflexivity|]. cbn [fold_right]. destruct (Nat.min_dec b (fold_right Nat.min a r)) as [E|E]; rewrite E; [right; left; reflexivity|].
    destruct IH as [IH|IH]; [left; exact IH|right; right; exact IH].
  Qed.
  Lemma min_alt_le l a : In a l -> (min_alt l <= a)%nat.
  Proof. clear V.
    destruct l as [|b r]; [contradiction|]. cbn [min_alt]. intros H. assert (Hb : (fold_right Nat.min b r <= b)%nat /\ forall x, In x r -> (fold_right Nat.min b r <= x)%nat).
    { clear H. induction r as [|c r [I1 I2]]; cbn [fold_right]; [split; [lia|intros x []]|]. split; [lia|]. intros x [<-|Hx]; [lia|]. specialize (I2 x Hx). lia. }
    destruct H as [<-|H]; [tauto|apply Hb; exact H].
  Qed.
  Lemma prefix_same a : forall b, prefix a b = true -> length a = length b -> a = b.
  Proof. clear V.
    induction a as [|x a IH]; intros [|y b] H Hl; cbn [prefix length] in H, Hl; try discriminate; [reflexivity|]. apply andb_prop in H. destruct H as [H1 H2]. apply Z.eqb_eq in H1. injection Hl as Hl. f_equal; [exact H1|apply IH; [exact H2|exact Hl]].
  Qed.
  Lemma prefix_refl a : prefix a a = true.
  Proof. clear V. induction a as [|x a IH]; [reflexivity|]. cbn. rewrite Z.eqb_refl. exact IH. Qed.
  Lemma covers_true a b : covers true a b = true <-> a = b.
  Proof. clear V.
    unfold covers. cbn [negb orb]. rewrite andb_true_iff, Nat.eqb_eq. split; [intros [H1 H2]; apply prefix_same; assumption|intros ->; split; [apply prefix_refl|reflexivity]].
  Qed.
  Lemma in_ctx_of ks s a st : In st (ctx_of ks s a) <-> has ks s a st.
  Proof. clear V.
    unfold ctx_of, has. split.
    - intros H. apply in_map_iff in H. destruct H as (k & <- & H). apply filter_In in H. destruct H as [H1 H2]. apply andb_prop in H2. destruct H2 as [H2 H3]. apply Z.eqb_eq in H2. apply Nat.eqb_eq in H3.
      exists (k_outer k). subst s a. destruct k. exact H1.
    - intros [o H]. apply in_map_iff. eexists. split; [|apply filter_In; split; [exact H|]]; cbn; [reflexivity|]. rewrite Z.eqb_refl, Nat.eqb_refl. reflexivity.
  Qed.
  Lemma in_alts_at ks s a : In a (alts_at ks s) <-> exists st, has ks s a st.
  Proof. clear V.
    unfold alts_at. rewrite nodup_In. split.
    - intros H. apply in_map_iff in H. destruct H as (k & <- & H). apply filter_In in H. destruct H as [H1 H2]. apply Z.eqb_eq in H2. exists (k_ctx k). subst s. apply has_in. exact H1.
    - intros [st [o H]]. apply in_map_iff. eexists. split; [|apply filter_In; split; [exact H|]]; cbn; [reflexivity|]. apply Z.eqb_refl.
  Qed.
  Lemma in_keys ks s a : In (s, a) (keys ks) <-> exists st, has ks s a st.
  Proof. clear V.
    unfold keys. rewrite nodup_In. split.
    - intros H. apply in_map_iff in H. destruct H as (k & E & H). injection E as <- <-. exists (k_ctx k). apply has_in. exact H.
    - intros [st [o H]]. apply in_map_iff. eexists. split; [|exact H]. reflexivity.
  Qed.
  Lemma in_subset ks s a a' : In a' (subset_of true ks (s, a)) <-> (exists st, has ks s a' st) /\ forall st, has ks s a' st <-> has ks s a st.
  Proof. clear V.
    unfold subset_of. rewrite filter_In, in_alts_at. cbn [fst snd]. unfold same_ctx. rewrite andb_true_iff, !forallb_forall.
    assert (HE : forall x y, (forall c, In c (ctx_of ks s x) -> existsb (fun b => covers true b c) (ctx_of ks s y) = true) <-> forall st, has ks s x st -> has ks s y st).
    { intros x y. split.
      - intros H st Hh. apply in_ctx_of in Hh. specialize (H _ Hh). apply existsb_exists in H. destruct H as (b & Hb & Hc). apply covers_true in Hc. subst b. apply in_ctx_of. exact Hb.
      - intros H c Hc. apply in_ctx_of, H, in_ctx_of in Hc. apply existsb_exists. exists c. split; [exact Hc|]. apply covers_true. reflexivity. }
    rewrite !HE. split.
    - intros [H1 [H2 H3]]. split; [exact H1|]. intros st. split; auto.
    - intros [H1 H2]. split; [exact H1|]. split; intros st; apply H2.
  Qed.
  Lemma resolves_ok ks m : resolves ks = Some m -> forall s a st, has ks s a st -> has ks s m st /\ (m <= a)%nat.
  Proof. clear V.
    unfold resolves. intros H s a st Hh. assert (Hm : min_alt (subset_of true ks (s, a)) = m).
    { assert (Hk : In (s, a) (keys ks)) by (apply in_keys; eauto). apply (in_map (fun p => min_alt (subset_of true ks p))) in Hk.
      destruct (map _ (keys ks)) as [|m0 r]; [discriminate|]. destruct (forallb (Nat.eqb m0) r) eqn:E; [|discriminate]. injection H as <-. destruct Hk as [Hk|Hk]; [symmetry; exact Hk|].
      rewrite forallb_forall in E. specialize (E _ Hk). apply Nat.eqb_eq in E. symmetry. exact E. }
    assert (Ha : In a (subset_of true ks (s, a))) by (apply in_subset; split; [eauto|tauto]). split.
    - assert (Hi : In m (subset_of true ks (s, a))) by (rewrite <- Hm; apply min_alt_in; intros E; rewrite E in Ha; contradiction). apply in_subset in Hi. apply (proj2 Hi). exact Hh.
    - rewrite <- Hm. apply min_alt_le. exact Ha.
  Qed.
  Lemma resolves_same ks s : ks <> [] -> (forall s' a st, has ks s' a st -> s' = s /\ st = []) -> exists m, resolves ks = Some m.
  Proof. clear V.
    intros Hne Hall.
    assert (HS : forall p q, In p (keys ks) -> In q (keys ks) -> subset_of true ks p = subset_of true ks q).
    { intros [s1 a1] [s2 a2] H1 H2. apply in_keys in H1, H2. destruct H1 as [st1 H1], H2 as [st2 H2]. destruct (Hall _ _ _ H1) as [-> ->]. destruct (Hall _ _ _ H2) as [-> ->].
      unfold subset_of. cbn [fst snd]. apply filter_ext_in. intros a Ha.
      assert (Hw : forall b, has ks s b [] -> same_ctx true (ctx_of ks s a) (ctx_of ks s b) = true).
      { intros b Hb. unfold same_ctx. apply in_alts_at in Ha. destruct Ha as [st3 Ha]. destruct (Hall _ _ _ Ha) as [_ ->]. apply andb_true_intro. split; apply forallb_forall; intros c Hc; apply in_ctx_of in Hc;
          destruct (Hall _ _ _ Hc) as [_ ->]; apply existsb_exists; exists []; (split; [apply in_ctx_of; assumption|reflexivity]). }
      rewrite (Hw a1 H1), (Hw a2 H2). reflexivity. }
    unfold resolves. destruct ks as [|k0 ks]; [contradiction|].
    assert (H0 : In (k_state k0, k_alt k0) (keys (k0 :: ks))) by (apply in_keys; exists (k_ctx k0); apply has_in; left; reflexivity).
    destruct (keys (k0 :: ks)) as [|p ps] eqn:Hk; [contradiction|]. cbn [map].
    assert (E : forallb (Nat.eqb (min_alt (subset_of true (k0 :: ks) p))) (map (fun p => min_alt (subset_of true (k0 :: ks) p)) ps) = true).
    { apply forallb_forall. intros x Hx. apply in_map_iff in Hx. destruct Hx as (q & <- & Hq). apply Nat.eqb_eq. f_equal. apply HS; [left; reflexivity|right; exact Hq]. }
    rewrite E. eauto.
  Qed.

  (** ** The loops *)
  Variable m : nat.
  Variable Hm : V m.
  Variable Hmin : forall a, V a -> (m <= a)%nat.
  (** The rest of an input whose last token, and no other, is EOF. *)
  Fixpoint to_eof (w : list ttype) : Prop :=
    match w with [] => False | x :: w' => x = EOF /\ w' = [] \/ x <> EOF /\ to_eof w' end.
  Lemma to_eof_cons x w : to_eof (x :: w) -> (x = EOF -> w = []) /\ (w = [] -> x = EOF) /\ (w <> [] -> to_eof w).
  Proof.
    intros [[-> ->]|[Hx Hw]]; [split; [reflexivity|split; [reflexivity|intros H; contradiction]]|]. split; [contradiction|]. split; [intros ->; contradiction|auto].
  Qed.
  Lemma unique_least ks x w' full a : cov full ks (x :: w') -> (x = EOF -> w' = []) -> unique_alt (reach_set A full ks (tnum x)) = Some a -> a = m.
  Proof.
    intros Hc Hx Hu. destruct (step_cov full ks x w' Hc Hx) as [H1 _]. destruct (H1 m Hm) as (k & Hk & E). rewrite <- E. symmetry. eapply unique_ok; eassumption.
  Qed.
  Lemma full_ok w : forall ks n, to_eof w -> cov true ks w -> snd_ ks w -> wf ks -> exec_full A ks w n = Alt m.
  Proof.
    induction w as [|x w IH]; intros ks n Hw Hc Hs Hwf; [contradiction|]. cbn [exec_full]. destruct (to_eof_cons _ _ Hw) as (Hx & Hx' & Hw').
    destruct (step_cov true ks x w Hc Hx) as [H1 H2]. destruct (H1 m Hm) as (k0 & Hk0 & Ek0).
    destruct (reach_set A true ks (tnum x)) as [|k1 ks1] eqn:Er; [contradiction|]. rewrite <- Er in *.
    destruct (unique_alt (reach_set A true ks (tnum x))) as [a|] eqn:Hu; [f_equal; eapply unique_least; eassumption|].
    specialize (H2 eq_refl). pose proof (step_snd ks x w Hc Hs (ex_intro _ m Hm) Hx Hx' Hu) as H3. pose proof (step_wf ks _ Hwf Hu) as H4.
    destruct (resolves (reach_set A true ks (tnum x))) as [a|] eqn:Hr.
    - f_equal. pose proof (resolves_ok _ _ Hr) as Hro. destruct (H2 m Hm) as (s & l & b & Hh & _ & Hrd & Hb). specialize (Hb eq_refl). subst b. rewrite app_nil_r in Hrd.
      destruct (Hro _ _ _ Hh) as [Hh' Hle]. pose proof (Hmin _ (H3 _ _ _ Hh' Hrd)). lia.
    - destruct w as [|y w]; [|apply IH; auto; apply Hw'; discriminate]. exfalso. rewrite (Hx' eq_refl) in *. cbn [tnum] in *.
      pose proof (step_eof true ks Hu) as Hst.
      destruct (resolves_same (reach_set A true ks (-1)) (k_state k0)) as [a Ha]; [intros E; rewrite E in Hk0; contradiction| |congruence].
      intros s a st Hh. destruct (H4 _ _ _ Hh) as [Hl Hn]. assert (Hss : is_stop s = true) by (destruct Hh as [o Hh]; exact (Hst _ Hh)). specialize (Hn Hss). subst st. split; [|reflexivity].
      destruct (H4 _ _ _ (has_in _ _ Hk0)) as [Hl0 Hn0]. rewrite (Hn0 (Hst _ Hk0)) in Hl0. apply Huniq; auto.
  Qed.
  Lemma sll_ok w0 fs : (forall n, exec_full A fs w0 n = Alt m) -> forall w ks n, to_eof w -> cov false ks w -> exec A fs w0 ks w n = Alt m.
  Proof.
    intros Hf. induction w as [|x w IH]; intros ks n Hw Hc; [contradiction|]. cbn [exec]. destruct (to_eof_cons _ _ Hw) as (Hx & Hx' & Hw').
    destruct (step_cov false ks x w Hc Hx) as [H1 H2]. destruct (H1 m Hm) as (k0 & Hk0 & Ek0).
    destruct (reach_set A false ks (tnum x)) as [|k1 ks1] eqn:Er; [contradiction|]. rewrite <- Er in *.
    destruct (unique_alt (reach_set A false ks (tnum x))) as [a|] eqn:Hu; [f_equal; eapply unique_least; eassumption|].
    destruct (sll_conflict A (reach_set A false ks (tnum x))) eqn:Hsc; [apply Hf|].
    destruct w as [|y w]; [|apply IH; [apply Hw'; discriminate|apply H2; reflexivity]]. exfalso. rewrite (Hx' eq_refl) in *. cbn [tnum] in *.
    unfold sll_conflict in Hsc. apply orb_false_elim in Hsc. destruct Hsc as [Hsc _].
    assert (Ht : forallb (fun k => is_stop (k_state k)) (reach_set A false ks (-1)) = true) by (apply forallb_forall; intros k Hk; exact (step_eof false ks Hu k Hk)). congruence.
  Qed.
End Net.

(** ** adaptivePredict *)
Section Predict.
  Variable A : atn.
  Variable Hstop : forall s, is_stop A s = true -> out A s = [].
  Variable Hdepth : forall s, inner_ok A depth s = true.
  Variable Hrule : forall s l t, In (l, t) (out A s) -> rule_of A t = rule_of A s.
  Variable Hcall : forall s q r pr t, In (RuleT q r pr, t) (out A s) -> rule_of A q = r.
  Variable Hchase : forall e, is_stop A e = true -> incl (follows A e) (chased A e) /\
    forall t e' f, In t (chased A e) -> In e' (snd (inner A depth t)) -> In f (follows A e') -> In f (chased A e).
  Variable Huniq : forall e e', is_stop A e = true -> is_stop A e' = true -> follows A e = [] -> follows A e' = [] -> e = e'.

  Theorem adaptive_ok d c w i : (forall t, In t (alternatives A d) -> legit A t (map (follow_of A) c)) -> to_eof w -> least_alt A d c w i -> adaptive A d c w = Some i.
  Proof.
    intros Hl Hw [(t0 & Ht0 & Hi & Hr0) Hlt]. set (c0 := map (follow_of A) c) in *.
    set (V := fun a => exists t, nth_error (alternatives A d) (a - 1) = Some t /\ (1 <= a)%nat /\ reach A t c0 w).
    assert (Hm : V i) by (exists t0; auto).
    assert (Hmin : forall a, V a -> (i <= a)%nat).
    { intros a (t & Ht & Ha & Hr). destruct (Nat.le_gt_cases i a) as [|Hgt]; [assumption|]. destruct (Hlt a t ltac:(lia) Ht Hr). }
    assert (Hini : forall full, cov A V full (collect (starts A full (if full then c0 else []) 1 (alternatives A d))) w).
    { intros full a (t & Ht & Ha & Hr). destruct (reach_reads _ _ _ _ Hr) as (s' & st' & Hcr & Hrd). pose proof (reads_live _ _ _ _ Hrd) as Hlv.
      assert (Hlt0 : legit A t c0) by (apply Hl; eapply nth_error_In; exact Ht).
      assert (E : c0 = (if full then c0 else []) ++ (if full then [] else c0)) by (destruct full; [symmetry; apply app_nil_r|reflexivity]).
      destruct (close_complete A Hstop Hdepth Hrule Hcall Hchase full (if full then c0 else []) (if full then [] else c0) t s' st') as (l' & b' & o & -> & Hin & Hb);
        [rewrite <- E; exact Hlt0|rewrite <- E; exact Hcr|exact Hlv|intros ->; reflexivity|].
      exists s', l', b'. split; [apply has_collect, has_starts; exists (a - 1)%nat, t, o; split; [exact Ht|split; [lia|exact Hin]]|]. split; [eapply legit_creach; eassumption|auto]. }
    unfold adaptive, adaptive_predict. fold c0. cbv zeta.
    rewrite (sll_ok A Hstop Hdepth Hrule Hcall Hchase V i Hm) with (w := w); [reflexivity| |exact Hw|exact (Hini false)].
    intros n. apply (full_ok A Hstop Hdepth Hrule Hcall Hchase Huniq V i Hm Hmin); [exact Hw|exact (Hini true)| |].
    - intros s a st Hh Hrd. apply has_collect, has_starts in Hh. destruct Hh as (j & t & o & Hn & -> & Hin). apply close_true in Hin; auto. destruct Hin as (_ & _ & Hcr).
      exists t. replace (1 + j - 1)%nat with j by lia. split; [exact Hn|]. split; [lia|]. eapply creach_reach; [exact Hcr|]. apply reads_reach. exact Hrd.
    - intros s a st Hh. apply has_collect, has_starts in Hh. destruct Hh as (j & t & o & Hn & -> & Hin). apply close_true in Hin; auto. destruct Hin as (_ & Hlv & Hcr). split.
      + eapply legit_creach; [exact Hrule|exact Hcall|exact Hcr|]. apply Hl. eapply nth_error_In. exact Hn.
      + intros Hs. destruct Hlv as [(l & t' & Hi' & _)|[_ E]]; [rewrite (Hstop _ Hs) in Hi'; contradiction|exact E].
  Qed.

  (** Whatever is predicted is an alternative of the decision. *)
  Definition rng (n : nat) (ks : list conf) : Prop := forall s a st, has ks s a st -> (1 <= a <= n)%nat.
  Lemma rng_step n full ks x : rng n ks -> rng n (reach_set A full ks x).
  Proof.
    intros H s a st Hh. assert (HI : forall s a st, has (inter_of A ks x) s a st -> (1 <= a <= n)%nat).
    { intros s0 a0 st0 H0. apply (has_inter A Hstop) in H0. destruct H0 as (s1 & l & H1 & _). exact (H _ _ _ H1). }
    destruct (reach_set_cases A full ks x) as [(a1 & _ & E)|E]; [rewrite E in Hh; exact (HI _ _ _ Hh)|]. cbv zeta in E. destruct E as (r' & E & Hr'). rewrite E in Hh. apply has_app in Hh. destruct Hh as [Hh|Hh].
    - apply has_if, has_collect, has_closures in Hh. destruct Hh as (s0 & st0 & o & H0 & _). exact (HI _ _ _ H0).
    - destruct Hr' as [->|[-> _]]; [destruct (has_nil _ _ _ Hh)|]. unfold skipped_of in Hh. destruct (full || _); [|destruct (has_nil _ _ _ Hh)]. apply has_filter in Hh. exact (H _ _ _ (proj1 Hh)).
  Qed.
  Lemma rng_in n ks k : rng n ks -> In k ks -> (1 <= k_alt k <= n)%nat.
  Proof. intros H Hk. exact (H _ _ _ (has_in _ _ Hk)). Qed.
  Lemma rng_unique n ks a : rng n ks -> unique_alt ks = Some a -> (1 <= a <= n)%nat.
  Proof. intros H Hu. destruct (unique_in _ _ Hu) as (k & Hk & <-). eapply rng_in; eassumption. Qed.
  Lemma rng_resolves n ks a : rng n ks -> resolves ks = Some a -> (1 <= a <= n)%nat.
  Proof.
    intros H Hr. destruct ks as [|k ks]; [discriminate|]. destruct (resolves_ok _ _ Hr _ _ _ (has_in (k :: ks) k (or_introl eq_refl))) as [Hh _]. exact (H _ _ _ Hh).
  Qed.
  Lemma rng_viable n ks a k : rng n ks -> no_viable A ks k = Alt a -> (1 <= a <= n)%nat.
  Proof.
    intros H. unfold no_viable, finished_alt. set (l := filter _ ks). assert (Hl : incl l ks) by (intros x Hx; apply filter_In in Hx; tauto). clearbody l.
    destruct l as [|k0 l]; [discriminate|]. intros E. assert (Ea : min_alt (map k_alt (k0 :: l)) = a) by congruence. clear E. subst a. assert (Hi : In (min_alt (map k_alt (k0 :: l))) (map k_alt (k0 :: l))) by (apply min_alt_in; discriminate).
    apply in_map_iff in Hi. destruct Hi as (k1 & E & Hk1). rewrite <- E. eapply rng_in; [exact H|apply Hl; exact Hk1].
  Qed.
  Lemma rng_full n w : forall ks k a, rng n ks -> exec_full A ks w k = Alt a -> (1 <= a <= n)%nat.
  Proof.
    induction w as [|x w IH]; intros ks k a H E; cbn [exec_full] in E; [discriminate|]. pose proof (rng_step n true ks (tnum x) H) as H'.
    destruct (reach_set A true ks (tnum x)) as [|k1 ks1]; [eapply rng_viable; [exact H|exact E]|].
    destruct (unique_alt (k1 :: ks1)) as [a'|] eqn:Hu; [injection E as <-; eapply rng_unique; [exact H'|exact Hu]|].
    destruct (resolves (k1 :: ks1)) as [a'|] eqn:Hr; [injection E as <-; eapply rng_resolves; [exact H'|exact Hr]|]. eapply IH; [exact H'|exact E].
  Qed.
  Lemma rng_sll n fs w0 : rng n fs -> forall w ks k a, rng n ks -> exec A fs w0 ks w k = Alt a -> (1 <= a <= n)%nat.
  Proof.
    intros Hf. induction w as [|x w IH]; intros ks k a H E; cbn [exec] in E; [discriminate|]. pose proof (rng_step n false ks (tnum x) H) as H'.
    destruct (reach_set A false ks (tnum x)) as [|k1 ks1]; [eapply rng_viable; [exact H|exact E]|].
    destruct (unique_alt (k1 :: ks1)) as [a'|] eqn:Hu; [injection E as <-; eapply rng_unique; [exact H'|exact Hu]|].
    destruct (sll_conflict A (k1 :: ks1)); [eapply rng_full; [exact Hf|exact E]|]. eapply IH; [exact H'|exact E].
  Qed.
  Theorem adaptive_range d c w i : adaptive A d c w = Some i -> (1 <= i <= length (alternatives A d))%nat.
  Proof.
    unfold adaptive. destruct (adaptive_predict A d c w) as [a|] eqn:E; [|discriminate]. intros H. injection H as <-. unfold adaptive_predict in E. cbv zeta in E.
    assert (HR : forall full st, rng (length (alternatives A d)) (collect (starts A full st 1 (alternatives A d)))).
    { intros full st s a0 st' Hh. apply has_collect, has_starts in Hh. destruct Hh as (j & t & o & Hn & -> & _). assert (Hj : (j < length (alternatives A d))%nat) by (apply nth_error_Some; congruence). lia. }
    eapply rng_sll; [apply HR|apply HR|exact E].
  Qed.
End Predict.
