(** Adaptive prediction returns the least viable alternative. *)
From Verif Require Import Base LexRules Lexer Grammar Antlr GenParser Atn AllStar.
Local Open Scope Z_scope.

Section Net.
  Variable A : atn.
  Notation out := (out A).
  Notation is_stop := (is_stop A).
  Notation rule_of := (rule_of A).

  (** ** Moves without reading *)
  Inductive creach : Z -> list Z -> Z -> list Z -> Prop :=
  | cr_refl s st : creach s st s st
  | cr_eps s t st s' st' : In (Epsilon, t) (out s) -> creach t st s' st' -> creach s st s' st'
  | cr_call s q r pr t st s' st' : In (RuleT q r pr, t) (out s) -> creach q (t :: st) s' st' -> creach s st s' st'
  | cr_ret s f st s' st' : is_stop s = true -> creach f st s' st' -> creach s (f :: st) s' st'.
  Lemma creach_trans s st s1 st1 s2 st2 : creach s st s1 st1 -> creach s1 st1 s2 st2 -> creach s st s2 st2.
  Proof.
    induction 1 as [s st|s t st s' st' He Hc IH|s q r pr t st s' st' He Hc IH|s f st s' st' Hs Hc IH]; intros H2.
    - exact H2.
    - eapply cr_eps; [exact He|exact (IH H2)].
    - eapply cr_call; [exact He|exact (IH H2)].
    - apply cr_ret; [exact Hs|exact (IH H2)].
  Qed.
  Lemma creach_lift s a s' a' b : creach s a s' a' -> creach s (a ++ b) s' (a' ++ b).
  Proof.
    induction 1 as [s st|s t st s' st' He Hc IH|s q r pr t st s' st' He Hc IH|s f st s' st' Hs Hc IH]; intros; [apply cr_refl|..].
    - eapply cr_eps; [exact He|exact IH].
    - eapply cr_call; [exact He|exact IH].
    - apply cr_ret; [exact Hs|exact IH].
  Qed.
  Lemma creach_app s st s' st' : creach s st s' st' -> forall a b, st = a ++ b ->
    (exists a', st' = a' ++ b /\ creach s a s' a') \/
    (exists e f b', is_stop e = true /\ creach s a e [] /\ b = f :: b' /\ creach f b' s' st').
  Proof.
    induction 1 as [s st|s t st s' st' He Hc IH|s q r pr t st s' st' He Hc IH|s f st s' st' Hs Hc IH]; intros a b E.
    - left. exists a. split; [exact E|apply cr_refl].
    - destruct (IH a b E) as [(a' & -> & H)|(e & f & b' & H1 & H2 & H3 & H4)].
      + left. exists a'. split; [reflexivity|]. eapply cr_eps; [exact He|exact H].
      + right. exists e, f, b'. split; [exact H1|split; [|split; [exact H3|exact H4]]]. eapply cr_eps; [exact He|exact H2].
    - destruct (IH (t :: a) b (f_equal (cons t) E)) as [(a' & -> & H)|(e & f & b' & H1 & H2 & H3 & H4)].
      + left. exists a'. split; [reflexivity|]. eapply cr_call; [exact He|exact H].
      + right. exists e, f, b'. split; [exact H1|split; [|split; [exact H3|exact H4]]]. eapply cr_call; [exact He|exact H2].
    - destruct a as [|x a]; cbn [app] in E.
      + right. exists s, f, st. split; [exact Hs|split; [apply cr_refl|split; [symmetry; exact E|exact Hc]]].
      + injection E as <- E. destruct (IH a b E) as [(a' & -> & H)|(e & g & b' & H1 & H2 & H3 & H4)].
        * left. exists a'. split; [reflexivity|]. apply cr_ret; [exact Hs|exact H].
        * right. exists e, g, b'. split; [exact H1|split; [|split; [exact H3|exact H4]]]. apply cr_ret; [exact Hs|exact H2].
  Qed.

  Lemma is_stop_ok s : is_stop s = true <-> stop_state A s.
  Proof.
    unfold AllStar.is_stop, stop_state. rewrite andb_true_iff, Z.leb_le. destruct (nth_error (a_states A) (Z.to_nat s)) as [q|].
    - rewrite Z.eqb_eq. split; [intros [H1 H2]; eauto|intros [H1 (q' & E & H2)]; injection E as <-; auto].
    - split; [intros [_ H]; discriminate|intros [_ (q' & E & _)]; discriminate].
  Qed.
  Lemma in_set_ok l x : in_set l x = true <-> within_set l x.
  Proof.
    unfold in_set, within_set. rewrite existsb_exists. split.
    - intros ([a b] & Hin & H). cbn [fst snd] in H. exists a, b. split; [exact Hin|lia].
    - intros (a & b & Hin & H). exists (a, b). cbn [fst snd]. split; [exact Hin|lia].
  Qed.
  Lemma matches_ok l x : matches A l x = true <-> sym A l x.
  Proof.
    destruct l; cbn [matches sym]; try (split; [discriminate|contradiction]).
    - lia.
    - lia.
    - apply in_set_ok.
    - rewrite andb_true_iff, negb_true_iff. rewrite <- in_set_ok. split.
      + intros [H1 H2]. split; [rewrite H1; discriminate|]. destruct (a_type A =? 0); lia.
      + intros [H1 H2]. split; [destruct (in_set l x); [exfalso; apply H1; reflexivity|reflexivity]|]. destruct (a_type A =? 0); lia.
  Qed.

  (** A state with a transition that reads. *)
  Definition rd (s : Z) : Prop := exists l t, In (l, t) (out s) /\ match l with Epsilon | RuleT _ _ _ => False | _ => True end.
  (** From here the next symbol is read, or the input is at its end and so is the outermost rule. *)
  Definition reads (s : Z) (st : list Z) (w : list ttype) : Prop :=
    match w with
    | [] => is_stop s = true /\ st = []
    | x :: w' => exists l t, In (l, t) (out s) /\ sym A l (tnum x) /\ reach A t st w'
    end.
  Lemma reach_reads s st w : reach A s st w -> exists s' st', creach s st s' st' /\ reads s' st' w.
  Proof.
    induction 1 as [s Hs|s f st w Hs Hr (s' & st' & H1 & H2)|s l t st w Hin Hl Hr (s' & st' & H1 & H2)|s l t st x w Hin Hl Hr _|s q r pr t st w Hin Hr (s' & st' & H1 & H2)].
    - exists s, []. split; [apply cr_refl|]. split; [apply is_stop_ok; exact Hs|reflexivity].
    - exists s', st'. split; [|exact H2]. apply cr_ret; [apply is_stop_ok; exact Hs|exact H1].
    - exists s', st'. split; [|exact H2]. destruct l; try contradiction. eapply cr_eps; [exact Hin|exact H1].
    - exists s, st. split; [apply cr_refl|]. exists l, t. auto.
    - exists s', st'. split; [|exact H2]. eapply cr_call; [exact Hin|exact H1].
  Qed.
  Lemma creach_reach s st s' st' w : creach s st s' st' -> reach A s' st' w -> reach A s st w.
  Proof.
    induction 1 as [s st|s t st s' st' He Hc IH|s q r pr t st s' st' He Hc IH|s f st s' st' Hs Hc IH]; intros H.
    - exact H.
    - eapply r_silent; [exact He|exact I|exact (IH H)].
    - eapply r_call; [exact He|exact (IH H)].
    - apply r_ret; [apply is_stop_ok; exact Hs|exact (IH H)].
  Qed.
  Lemma reads_reach s st w : reads s st w -> reach A s st w.
  Proof.
    destruct w as [|x w]; cbn [reads].
    - intros [H ->]. apply r_done. apply is_stop_ok. exact H.
    - intros (l & t & H1 & H2 & H3). eapply r_sym; [exact H1|exact H2|exact H3].
  Qed.
  Definition live (s : Z) (st : list Z) : Prop := rd s \/ is_stop s = true /\ st = [].
  Lemma reads_live s st w : reads s st w -> live s st.
  Proof.
    destruct w as [|x w]; cbn [reads].
    - intros H. right. exact H.
    - intros (l & t & H1 & H2 & _). left. exists l, t. split; [exact H1|]. destruct l; cbn in H2; auto.
  Qed.

  (** ** [inner] *)
  Variable Hstop : forall s, is_stop s = true -> out s = [].
  Fixpoint inner_ok (f : nat) (s : Z) : bool :=
    match f with
    | O => false
    | S f =>
        if is_stop s then true else
        forallb (fun e => match e with
                          | (Epsilon, t) => inner_ok f t
                          | (RuleT q _ _, t) => inner_ok f q && match snd (inner A f q) with [] => true | _ => inner_ok f t end
                          | _ => true
                          end) (out s)
    end.
  Lemma fold_pair {X Y Z0} (g : X -> list Y * list Z0) l :
    fold_right (fun e r => let x := g e in (fst x ++ fst r, snd x ++ snd r)) ([], []) l = (flat_map (fun e => fst (g e)) l, flat_map (fun e => snd (g e)) l).
  Proof. cbv zeta. induction l as [|e l IH]; [reflexivity|]. cbn [fold_right flat_map]. rewrite IH. reflexivity. Qed.
  Definition inner_edge (f : nat) (s : Z) (e : label * Z) : list (Z * list Z) * list Z :=
    match e with
    | (Epsilon, t) => inner A f t
    | (RuleT q _ _, t) =>
        let y := inner A f q in
        let z := match snd y with [] => ([], []) | _ => inner A f t end in
        (map (fun p => (fst p, snd p ++ [t])) (fst y) ++ fst z, snd z)
    | _ => ([(s, [])], [])
    end.
  Lemma inner_S f s : inner A (S f) s = if is_stop s then ([], [s]) else
    (flat_map (fun e => fst (inner_edge f s e)) (out s), flat_map (fun e => snd (inner_edge f s e)) (out s)).
  Proof. cbn [inner]. destruct (is_stop s); [reflexivity|]. rewrite <- fold_pair. reflexivity. Qed.
  Lemma inner_sound f : forall s,
    (forall s' l, In (s', l) (fst (inner A f s)) -> rd s' /\ creach s [] s' l) /\
    (forall e, In e (snd (inner A f s)) -> is_stop e = true /\ creach s [] e []).
  Proof.
    induction f as [|f IH]; intros s; [cbn; split; intros; contradiction|]. rewrite inner_S. destruct (is_stop s) eqn:Hs; cbn [fst snd].
    - split; [intros s' l []|]. intros e [<-|[]]. split; [exact Hs|apply cr_refl].
    - assert (HE : forall e, In e (out s) ->
        (forall s' l, In (s', l) (fst (inner_edge f s e)) -> rd s' /\ creach s [] s' l) /\
        (forall e0, In e0 (snd (inner_edge f s e)) -> is_stop e0 = true /\ creach s [] e0 [])).
      { intros [l t] Hin. assert (Hrd : match l with Epsilon | RuleT _ _ _ => False | _ => True end ->
          (forall s' l0, In (s', l0) [(s, @nil Z)] -> rd s' /\ creach s [] s' l0)).
        { intros Hl s' l0 [E|[]]. injection E as <- <-. split; [exists l, t; auto|apply cr_refl]. }
        destruct l; cbn [inner_edge fst snd]; try (split; [apply Hrd; exact I|intros e0 []]).
        - destruct (IH t) as [I1 I2]. split.
          + intros s' l Hi. destruct (I1 _ _ Hi) as [H1 H2]. split; [exact H1|]. eapply cr_eps; [exact Hin|exact H2].
          + intros e Hi. destruct (I2 _ Hi) as [H1 H2]. split; [exact H1|]. eapply cr_eps; [exact Hin|exact H2].
        - destruct (IH start) as [I1 I2]. destruct (IH t) as [J1 J2].
          destruct (snd (inner A f start)) as [|e0 es] eqn:He; cbn [fst snd].
          + split; [|intros e []]. intros s' l Hi. apply in_app_or in Hi. destruct Hi as [Hi|[]]. apply in_map_iff in Hi.
            destruct Hi as ([s0 l0] & E & Hi). cbn [fst snd] in E. injection E as <- <-. destruct (I1 _ _ Hi) as [H1 H2]. split; [exact H1|].
            eapply cr_call; [exact Hin|]. exact (creach_lift _ _ _ _ [t] H2).
          + assert (Hover : creach s [] t []).
            { destruct (I2 e0 (or_introl eq_refl)) as [H1 H2]. eapply cr_call; [exact Hin|].
              eapply creach_trans; [exact (creach_lift _ _ _ _ [t] H2)|]. apply cr_ret; [exact H1|apply cr_refl]. }
            split.
            * intros s' l Hi. apply in_app_or in Hi. destruct Hi as [Hi|Hi].
              -- apply in_map_iff in Hi. destruct Hi as ([s0 l0] & E & Hi). cbn [fst snd] in E. injection E as <- <-. destruct (I1 _ _ Hi) as [H1 H2]. split; [exact H1|].
                 eapply cr_call; [exact Hin|]. exact (creach_lift _ _ _ _ [t] H2).
              -- destruct (J1 _ _ Hi) as [H1 H2]. split; [exact H1|]. eapply creach_trans; [exact Hover|exact H2].
            * intros e Hi. destruct (J2 _ Hi) as [H1 H2]. split; [exact H1|]. eapply creach_trans; [exact Hover|exact H2]. }
      split.
      + intros s' l Hi. apply in_flat_map in Hi. destruct Hi as (e & He & Hi). exact (proj1 (HE e He) _ _ Hi).
      + intros e0 Hi. apply in_flat_map in Hi. destruct Hi as (e & He & Hi). exact (proj2 (HE e He) _ Hi).
  Qed.
  Lemma inner_complete f : forall s, inner_ok f s = true ->
    (forall s' l, rd s' -> creach s [] s' l -> In (s', l) (fst (inner A f s))) /\
    (forall e, is_stop e = true -> creach s [] e [] -> In e (snd (inner A f s))).
  Proof.
    induction f as [|f IH]; intros s Hok; [discriminate|]. rewrite inner_S. cbn [inner_ok] in Hok. destruct (is_stop s) eqn:Hs; cbn [fst snd].
    - assert (Hn : forall s' l, creach s [] s' l -> s' = s /\ l = []).
      { intros s' l H. pose proof (Hstop s Hs) as Ho. inversion H; subst; auto; match goal with Hi : In _ (out s) |- _ => rewrite Ho in Hi; contradiction end. }
      split.
      + intros s' l (l0 & t & Hi & _) H. destruct (Hn _ _ H) as [-> _]. rewrite (Hstop s Hs) in Hi. contradiction.
      + intros e _ H. destruct (Hn _ _ H) as [-> _]. left. reflexivity.
    - rewrite forallb_forall in Hok.
      assert (HE : forall s' l, live s' l -> creach s [] s' l -> (s' = s /\ l = []) \/ exists e, In e (out s) /\
         (rd s' -> In (s', l) (fst (inner_edge f s e))) /\ (is_stop s' = true -> l = [] -> In s' (snd (inner_edge f s e)))).
      { intros s' l Hlv H. inversion H as [|? t ? ? ? Hin Hc|? q r pr t ? ? ? Hin Hc|]; subst.
        - left. auto.
        - right. exists (Epsilon, t). split; [exact Hin|]. specialize (Hok _ Hin). cbn beta iota in Hok. destruct (IH t Hok) as [I1 I2]. cbn [inner_edge]. split.
          + intros Hr. apply I1; assumption.
          + intros Hst ->. apply I2; assumption.
        - right. exists (RuleT q r pr, t). split; [exact Hin|]. specialize (Hok _ Hin). cbn beta iota in Hok. apply andb_prop in Hok. destruct Hok as [Hq Ht].
          destruct (IH q Hq) as [I1 I2]. cbn [inner_edge fst snd]. destruct (creach_app _ _ _ _ Hc [] [t] eq_refl) as [(a' & -> & H2)|(e & g & b' & H1 & H2 & E & H4)].
          + split; [|intros _ E; destruct a'; discriminate]. intros Hr. apply in_or_app. left. apply in_map_iff. exists (s', a'). split; [reflexivity|]. apply I1; assumption.
          + injection E as <- <-. specialize (I2 e H1 H2). destruct (snd (inner A f q)) as [|e0 es] eqn:He; [contradiction|]. destruct (IH t Ht) as [J1 J2]. split.
            * intros Hr. apply in_or_app. right. apply J1; assumption.
            * intros Hst ->. apply J2; assumption. }
      split.
      + intros s' l Hr H. destruct (HE s' l (or_introl Hr) H) as [[-> ->]|(e & Hin & H1 & _)].
        * destruct Hr as (l0 & t & Hi & Hl). apply in_flat_map. exists (l0, t). split; [exact Hi|]. destruct l0; try contradiction; left; reflexivity.
        * apply in_flat_map. exists e. split; [exact Hin|]. apply H1. exact Hr.
      + intros e Hst H. destruct (HE e [] (or_intror (conj Hst eq_refl)) H) as [[-> _]|(d & Hin & _ & H2)].
        * rewrite Hst in Hs. discriminate.
        * apply in_flat_map. exists d. split; [exact Hin|]. apply H2; auto.
  Qed.
End Net.
