(** What adaptive prediction says about the next token. *)
From Verif Require Import Base LexRules Lexer Grammar Antlr Parser GenParser Atn AllStar AllStarFacts AllStarLoop AllStarNet Recover.
Local Open Scope Z_scope.

(** Alternative [a] of decision [d] can begin with [t], or can be empty. *)
Definition begins (A : atn) (d : nat) (t : ttype) (a : nat) : Prop :=
  exists s, nth_error (alternatives A d) (a - 1) = Some s /\ (1 <= a)%nat /\ (next_has A s t || next_eps A s = true).

Section Pred.
  Variable A : atn.
  Variable Hstop : forall s, is_stop A s = true -> out A s = [].

  Definition alts_in (P : nat -> Prop) (ks : list conf) : Prop := forall s a st, has ks s a st -> P a.
  Lemma ai_step P full ks x : alts_in P ks -> alts_in P (reach_set A full ks x).
  Proof.
    intros H s a st Hh. assert (HI : forall s a st, has (inter_of A ks x) s a st -> P a).
    { intros s0 a0 st0 H0. apply (has_inter A Hstop) in H0. destruct H0 as (s1 & l & H1 & _). exact (H _ _ _ H1). }
    destruct (reach_set_cases A full ks x) as [(a1 & _ & E)|E]; [rewrite E in Hh; exact (HI _ _ _ Hh)|]. cbv zeta in E. destruct E as (r' & E & Hr'). rewrite E in Hh. apply has_app in Hh. destruct Hh as [Hh|Hh].
    - apply has_if, has_collect, has_closures in Hh. destruct Hh as (s0 & st0 & o & H0 & _). exact (HI _ _ _ H0).
    - destruct Hr' as [->|[-> _]]; [destruct (has_nil _ _ _ Hh)|]. unfold skipped_of in Hh. destruct (full || _); [|destruct (has_nil _ _ _ Hh)]. apply has_filter in Hh. exact (H _ _ _ (proj1 Hh)).
  Qed.
  Lemma ai_unique P ks a : alts_in P ks -> unique_alt ks = Some a -> P a.
  Proof. intros H Hu. destruct (unique_in _ _ Hu) as (k & Hk & <-). exact (H _ _ _ (has_in _ _ Hk)). Qed.
  Lemma ai_resolves (P : nat -> Prop) ks a : alts_in P ks -> resolves ks = Some a -> P a.
  Proof.
    intros H Hr. destruct ks as [|k ks]; [discriminate|]. destruct (resolves_ok _ _ Hr _ _ _ (has_in (k :: ks) k (or_introl eq_refl))) as [Hh _]. exact (H _ _ _ Hh).
  Qed.
  (** The alternative chosen when nothing can be read: one that has ended. *)
  Lemma nv_in ks a k : no_viable A ks k = Alt a -> exists c, In c ks /\ k_alt c = a /\ (k_outer c = true \/ is_stop A (k_state c) = true).
  Proof.
    unfold no_viable, finished_alt. set (l := filter _ ks). assert (Hl : forall c, In c l -> In c ks /\ (k_outer c = true \/ is_stop A (k_state c) = true)).
    { intros c Hc. apply filter_In in Hc. destruct Hc as [Hc E]. split; [exact Hc|]. apply orb_prop in E. destruct E as [E|E]; [left; exact E|right]. apply andb_prop in E. exact (proj1 E). }
    clearbody l. destruct l as [|k0 l]; [discriminate|]. intros E. assert (Ea : min_alt (map k_alt (k0 :: l)) = a) by congruence. clear E. subst a.
    assert (Hi : In (min_alt (map k_alt (k0 :: l))) (map k_alt (k0 :: l))) by (apply min_alt_in; discriminate).
    apply in_map_iff in Hi. destruct Hi as (k1 & E & Hk1). exists k1. destruct (Hl _ Hk1) as [H1 H2]. auto.
  Qed.
  Lemma ai_viable P ks a k : alts_in P ks -> no_viable A ks k = Alt a -> P a.
  Proof. intros H E. destruct (nv_in _ _ _ E) as (c & Hc & <- & _). exact (H _ _ _ (has_in _ _ Hc)). Qed.
  Lemma ai_full P w : forall ks k a, alts_in P ks -> exec_full A ks w k = Alt a -> P a.
  Proof.
    induction w as [|x w IH]; intros ks k a H E; cbn [exec_full] in E; [discriminate|]. pose proof (ai_step P true ks (tnum x) H) as H'.
    destruct (reach_set A true ks (tnum x)) as [|k1 ks1]; [eapply ai_viable; [exact H|exact E]|].
    destruct (unique_alt (k1 :: ks1)) as [a'|] eqn:Hu; [injection E as <-; eapply ai_unique; [exact H'|exact Hu]|].
    destruct (resolves (k1 :: ks1)) as [a'|] eqn:Hr; [injection E as <-; eapply ai_resolves; [exact H'|exact Hr]|]. eapply IH; [exact H'|exact E].
  Qed.
  Lemma ai_sll (P : nat -> Prop) fs w0 : (forall a n, exec_full A fs w0 n = Alt a -> P a) -> forall w ks k a, alts_in P ks -> exec A fs w0 ks w k = Alt a -> P a.
  Proof.
    intros Hf. induction w as [|x w IH]; intros ks k a H E; cbn [exec] in E; [discriminate|]. pose proof (ai_step P false ks (tnum x) H) as H'.
    destruct (reach_set A false ks (tnum x)) as [|k1 ks1]; [eapply ai_viable; [exact H|exact E]|].
    destruct (unique_alt (k1 :: ks1)) as [a'|] eqn:Hu; [injection E as <-; eapply ai_unique; [exact H'|exact Hu]|].
    destruct (sll_conflict A (k1 :: ks1)); [eapply Hf; exact E|]. eapply IH; [exact H'|exact E].
  Qed.

  (** The first step. *)
  Lemma close_first full t st s st' o : In (s, st', o) (close A full t st) -> (exists l, In (s, l) (fst (inner A depth t))) /\ o = false \/ next_eps A t = true.
  Proof.
    unfold next_eps. destruct st as [|f st]; cbn [close]; intros H; apply in_app_or in H; destruct H as [H|H].
    1, 3: left; apply in_map_iff in H; destruct H as ([s0 l] & E & H); injection E as <- _ <-; split; [exists l; exact H|reflexivity].
    all: right; destruct (snd (inner A depth t)); [contradiction|reflexivity].
  Qed.
  Lemma collect_outer ks : forall k, In k (collect ks) -> k_outer k = true -> exists k', In k' ks /\ k_alt k' = k_alt k /\ k_outer k' = true.
  Proof.
    unfold collect. assert (HA : forall k ks0 k1, In k1 (add k ks0) -> k_outer k1 = true -> exists k', (k' = k \/ In k' ks0) /\ k_alt k' = k_alt k1 /\ k_outer k' = true).
    { intros k. induction ks0 as [|k0 r IH]; cbn [add]; intros k1 H Ho; [destruct H as [<-|[]]; exists k; auto|]. destruct (same_conf k k0) eqn:Es.
      - destruct H as [<-|H]; [|exists k1; split; [right; right; exact H|auto]]. cbn [k_alt k_outer] in *. apply same_conf_ok in Es. destruct Es as (_ & Ea & _). apply orb_prop in Ho.
        destruct Ho as [Ho|Ho]; [exists k; auto|exists k0; split; [right; left; reflexivity|auto]].
      - destruct H as [<-|H]; [exists k0; split; [right; left; reflexivity|auto]|]. destruct (IH _ H Ho) as (k' & [->|H1] & H2); [exists k; auto|exists k'; split; [right; right; exact H1|exact H2]]. }
    assert (HG : forall ks r k, In k (fold_left (fun r k => add k r) ks r) -> k_outer k = true -> exists k', (In k' ks \/ In k' r) /\ k_alt k' = k_alt k /\ k_outer k' = true).
    { intros ks0. induction ks0 as [|k0 ks0 IH]; cbn [fold_left]; intros r k H Ho; [exists k; auto|]. destruct (IH _ _ H Ho) as (k' & [H1|H1] & E & Ho'); [exists k'; split; [left; right; exact H1|auto]|].
      destruct (HA _ _ _ H1 Ho') as (k2 & [->|H2] & E2 & Ho2); [exists k0; split; [left; left; reflexivity|split; [congruence|exact Ho2]]|exists k2; split; [right; exact H2|split; [congruence|exact Ho2]]]. }
    intros k H Ho. destruct (HG _ _ _ H Ho) as (k' & [H1|[]] & H2). exists k'. auto.
  Qed.
  Lemma starts_in full st k l : forall n, In k (starts A full st n l) -> exists j t o, nth_error l j = Some t /\ k_alt k = (n + j)%nat /\ k_outer k = o /\ In (k_state k, k_ctx k, o) (close A full t st).
  Proof.
    induction l as [|t l IH]; intros n H; cbn [starts] in H; [contradiction|]. apply in_app_or in H. destruct H as [H|H].
    - unfold closure in H. apply in_map_iff in H. destruct H as ([[s st'] o] & <- & H). exists O, t, o. cbn [k_alt k_state k_ctx k_outer fst snd] in *. split; [reflexivity|]. split; [lia|]. split; [reflexivity|exact H].
    - destruct (IH _ H) as (j & t' & o & H1 & H2 & H3). exists (S j), t', o. split; [exact H1|]. split; [lia|exact H3].
  Qed.
  Lemma first_step full st d t : alts_in (begins A d t) (reach_set A full (collect (starts A full st 1 (alternatives A d))) (tnum t)).
  Proof.
    set (ks := collect _).
    assert (HS : forall s a st', has ks s a st' -> (exists t', nth_error (alternatives A d) (a - 1) = Some t' /\ (1 <= a)%nat /\ ((exists l, In (s, l) (fst (inner A depth t'))) \/ next_eps A t' = true))).
    { intros s a st' Hh. apply has_collect, has_starts in Hh. destruct Hh as (j & t' & o & Hn & -> & Hin). exists t'. replace (1 + j - 1)%nat with j by lia. split; [exact Hn|]. split; [lia|].
      destruct (close_first _ _ _ _ _ _ Hin) as [[H _]|H]; auto. }
    clearbody ks. intros s a st' Hh.
    assert (HI : forall s a st, has (inter_of A ks (tnum t)) s a st -> begins A d t a).
    { intros s0 a0 st0 H0. apply (has_inter A Hstop) in H0. destruct H0 as (s1 & l & H1 & Hl & Hsym). destruct (HS _ _ _ H1) as (t' & Hn & Ha & H2). exists t'. split; [exact Hn|]. split; [exact Ha|].
      apply orb_true_iff. destruct H2 as [[l' H2]|H2]; [left|right; exact H2]. unfold next_has. apply existsb_exists. exists (s1, l'). split; [exact H2|]. apply existsb_exists. exists (l, s0). split; [exact Hl|].
      apply matches_ok. exact Hsym. }
    destruct (reach_set_cases A full ks (tnum t)) as [(a1 & _ & E)|E]; [rewrite E in Hh; exact (HI _ _ _ Hh)|]. cbv zeta in E. destruct E as (r' & E & Hr'). rewrite E in Hh. apply has_app in Hh. destruct Hh as [Hh|Hh].
    - apply has_if, has_collect, has_closures in Hh. destruct Hh as (s0 & st0 & o & H0 & _). exact (HI _ _ _ H0).
    - destruct Hr' as [->|[-> _]]; [destruct (has_nil _ _ _ Hh)|]. unfold skipped_of in Hh. destruct (full || _); [|destruct (has_nil _ _ _ Hh)]. apply has_filter in Hh. destruct Hh as [Hh Hs].
      destruct (HS _ _ _ Hh) as (t' & Hn & Ha & H2). exists t'. split; [exact Hn|]. split; [exact Ha|]. apply orb_true_iff. right. destruct H2 as [[l' H2]|H2]; [|exact H2]. exfalso.
      destruct (proj1 (in_sound A t') _ _ H2) as [(l & t2 & Hrd) _]. rewrite (Hstop _ Hs) in Hrd. tauto.
  Qed.
  Lemma first_viable full st d t n a : no_viable A (collect (starts A full st 1 (alternatives A d))) n = Alt a -> begins A d t a.
  Proof.
    intros E. destruct (nv_in _ _ _ E) as (c & Hc & <- & Ho). destruct Ho as [Ho|Hs].
    - destruct (collect_outer _ _ Hc Ho) as (k' & Hk' & <- & Ho'). destruct (starts_in _ _ _ _ _ Hk') as (j & t' & o & Hn & -> & Eo & Hin). exists t'. replace (1 + j - 1)%nat with j by lia. split; [exact Hn|]. split; [lia|].
      apply orb_true_iff. right. destruct (close_first _ _ _ _ _ _ Hin) as [[_ H]|H]; [congruence|exact H].
    - pose proof (has_in _ _ Hc) as Hh. apply has_collect, has_starts in Hh. destruct Hh as (j & t' & o & Hn & -> & Hin). exists t'. replace (1 + j - 1)%nat with j by lia. split; [exact Hn|]. split; [lia|].
      apply orb_true_iff. right. destruct (close_first _ _ _ _ _ _ Hin) as [[[l' H2] _]|H]; [|exact H]. exfalso.
      destruct (proj1 (in_sound A t') _ _ H2) as [(l & t2 & Hrd) _]. rewrite (Hstop _ Hs) in Hrd. tauto.
  Qed.
  Theorem adaptive_begins d c t w i : adaptive_predict A d c (t :: w) = Alt i -> begins A d t i.
  Proof.
    unfold adaptive_predict. cbv zeta. intros E.
    assert (HF : forall a n, exec_full A (collect (starts A true (map (follow_of A) c) 1 (alternatives A d))) (t :: w) n = Alt a -> begins A d t a).
    { intros a n. cbn [exec_full]. pose proof (first_step true (map (follow_of A) c) d t) as H'. destruct (reach_set A true _ (tnum t)) as [|k1 ks1]; [apply first_viable|].
      destruct (unique_alt (k1 :: ks1)) as [a'|] eqn:Hu; [intros E'; injection E' as <-; eapply ai_unique; [exact H'|exact Hu]|].
      destruct (resolves (k1 :: ks1)) as [a'|] eqn:Hr; [intros E'; injection E' as <-; eapply ai_resolves; [exact H'|exact Hr]|]. intros E'. eapply ai_full; [exact H'|exact E']. }
    cbn [exec] in E. pose proof (first_step false [] d t) as H'. destruct (reach_set A false _ (tnum t)) as [|k1 ks1]; [eapply first_viable; exact E|].
    destruct (unique_alt (k1 :: ks1)) as [a'|] eqn:Hu; [injection E as <-; eapply ai_unique; [exact H'|exact Hu]|].
    destruct (sll_conflict A (k1 :: ks1)); [eapply HF; exact E|]. eapply ai_sll; [exact HF|exact H'|exact E].
  Qed.
End Pred.
Lemma net_begins d c t w i : adaptive_predict parser_atn d c (t :: w) = Alt i -> begins parser_atn d t i.
Proof. apply adaptive_begins. exact net_stop. Qed.
