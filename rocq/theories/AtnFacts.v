(** A verified checker: a piece of a network is the piece of a grammar. *)
From Verif Require Import Base LexRules Lexer Grammar Antlr GenParser Atn.
Local Open Scope Z_scope.

(** Right-hand sides, for grammars over any kind of symbol. *)
Inductive gx (L : Type) :=
| GEps | GTk (l : L) | GNT (r : Z) | GSq (a b : gx L) | GAl (a b : gx L) | GSt (e : gx L).
Arguments GEps {L}. Arguments GTk {L}. Arguments GNT {L}. Arguments GSq {L}. Arguments GAl {L}. Arguments GSt {L}.

(** A transition that can leave a trace. *)
Definition issym (lab : label) : Prop := match lab with Epsilon | RuleT _ _ _ => False | _ => True end.

Section Check.
  Context {I L : Type} (A : atn) (see : label -> I -> Prop) (wrap : Z -> list I -> list I).
  (** Symbols of the grammar, rules of the grammar; [inline]: fragments leave no trace. *)
  Variable gsee : L -> I -> Prop.
  Variable gbody : Z -> option (gx L).
  Variable same : L -> label -> bool.
  Variable inline : bool.
  Hypothesis same_ok : forall l lab, same l lab = true -> issym lab /\ forall i, gsee l i <-> see lab i.
  Hypothesis see_sym : forall lab i, see lab i -> issym lab.
  Hypothesis inline_ok : inline = true -> forall r y, wrap r y = y.
  Notation path := (path A see wrap).

  Inductive gl : gx L -> list I -> Prop :=
  | g_eps : gl GEps []
  | g_tk l i : gsee l i -> gl (GTk l) [i]
  | g_nt r b y : gbody r = Some b -> gl b y -> gl (GNT r) (wrap r y)
  | g_sq a b x y : gl a x -> gl b y -> gl (GSq a b) (x ++ y)
  | g_al1 a b x : gl a x -> gl (GAl a b) x
  | g_al2 a b x : gl b x -> gl (GAl a b) x
  | g_st0 e : gl (GSt e) []
  | g_st1 e x y : gl e x -> gl (GSt e) y -> gl (GSt e) (x ++ y).
  Inductive gls : list (gx L) -> list I -> Prop :=
  | gs_nil : gls [] []
  | gs_cons e K x y : gl e x -> gls K y -> gls (e :: K) (x ++ y).

  (** The piece of the network between two states is [e]. *)
  Inductive frag : gx L -> Z -> Z -> Prop :=
  | f_pre e s l t v : out A s = [(l, t)] -> silent l -> frag e t v -> frag e s v
  | f_post e s t l v : frag e s t -> out A t = [(l, v)] -> silent l -> frag e s v
  | f_eps s : frag GEps s s
  | f_tk l lab s t : out A s = [(lab, t)] -> same l lab = true -> frag (GTk l) s t
  | f_nt r b s q pr t : out A s = [(RuleT q r pr, t)] -> q = start_of A r -> gbody r = Some b -> frag (GNT r) s t
  | f_inline e s q r pr t v : inline = true -> out A s = [(RuleT q r pr, t)] -> frag e q v -> stop_state A v -> frag e s t
  | f_sq a b s t v : frag a s t -> frag b t v -> frag (GSq a b) s v
  | f_al e s v : alts e (out A s) v -> frag e s v
  | f_st e s a b : out A s = [(Epsilon, a); (Epsilon, b)] -> frag e a s -> frag (GSt e) s b
  with alts : gx L -> list (label * Z) -> Z -> Prop :=
  | al_one e t v : frag e t v -> alts e [(Epsilon, t)] v
  | al_cons a b t es v : frag a t v -> alts b es v -> alts (GAl a b) ((Epsilon, t) :: es) v.
  Scheme frag_mut := Induction for frag Sort Prop with alts_mut := Induction for alts Sort Prop.
  Inductive chain : list (gx L) -> Z -> Z -> Prop :=
  | c_nil v : chain [] v v
  | c_skip K s l t v : out A s = [(l, t)] -> silent l -> chain K t v -> chain K s v
  | c_cons e K s t v : frag e s t -> chain K t v -> chain (e :: K) s v.

  (** Rule stop states have no transitions; every rule's piece is its right-hand side. *)
  Hypothesis stops : forall s, stop_state A s -> out A s = [].
  Hypothesis bodies : forall r b, gbody r = Some b -> exists v, frag b (start_of A r) v /\ stop_state A v.

  (** ** The grammar's phrases are in the network. *)
  Lemma path_app s x t : path s x t -> forall y v, path t y v -> path s (x ++ y) v.
  Proof.
    induction 1 as [s|s l t x v Hin Hl _ IH|s l t i x v Hin Hl _ IH|s q r pr t y e x v Hin Hq _ Hst _ IH]; intros z w Hw.
    - exact Hw.
    - eapply p_silent; eauto.
    - cbn. eapply p_sym; eauto.
    - rewrite <- app_assoc. eapply p_call; eauto.
  Qed.
  Lemma path_skip s l t : In (l, t) (out A s) -> silent l -> path s [] t.
  Proof. intros Hin Hl. eapply p_silent; [exact Hin|exact Hl|constructor]. Qed.
  Ltac sole H := rewrite H; left; reflexivity.
  (** Steps that do not depend on the shape of [e]. *)
  Lemma lift_frag e x : (forall a b, e = GSq a b -> forall s t v, frag a s t -> frag b t v -> path s x v) ->
    (e = GEps -> x = []) -> (forall l, e = GTk l -> forall s lab t, out A s = [(lab, t)] -> same l lab = true -> path s x t) ->
    (forall r, e = GNT r -> forall s q pr t, out A s = [(RuleT q r pr, t)] -> q = start_of A r -> path s x t) ->
    (forall b, e = GSt b -> forall s a t, out A s = [(Epsilon, a); (Epsilon, t)] -> frag b a s -> path s x t) ->
    (forall a b, e = GAl a b -> (forall s t, frag a s t -> path s x t) \/ (forall es v, alts b es v -> exists t, In (Epsilon, t) es /\ path t x v)) ->
    (forall s t, frag e s t -> path s x t) /\ (forall es v, alts e es v -> exists t, In (Epsilon, t) es /\ path t x v).
  Proof.
    intros Hsq Heps Htk Hnt Hst Hal.
    assert (Hm : forall s t, frag e s t -> path s x t).
    { intros s t H. assert (He : e = e) by reflexivity. revert He.
      apply (frag_mut (fun e' s t _ => e' = e -> path s x t) (fun e' es v _ => e' = e -> exists t, In (Epsilon, t) es /\ path t x v)) with (g := e) (z := s) (z0 := t);
        [..|exact H]; clear s t H.
      - intros e' s l t v Ho Hl _ IH He. eapply p_silent; [sole Ho|exact Hl|auto].
      - intros e' s t l v _ IH Ho Hl He. rewrite <- (app_nil_r x). eapply path_app; [apply IH; exact He|]. eapply path_skip; [sole Ho|exact Hl].
      - intros s He. rewrite Heps by auto. constructor.
      - intros l lab s t Ho Hs He. eapply Htk; eauto.
      - intros r b s q pr t Ho Hq _ He. eapply Hnt; eauto.
      - intros e' s q r pr t v Hi Ho _ IH Hv He. rewrite <- (app_nil_r x), <- (inline_ok Hi r x). eapply p_call; [sole Ho|apply IH; exact He|exact Hv|constructor].
      - intros a b s t v Ha _ Hb _ He. eapply Hsq; eauto.
      - intros e' s v _ IH He. destruct (IH He) as (t & Hin & Hp). eapply p_silent; [exact Hin|exact Logic.I|exact Hp].
      - intros b s a t Ho Hf _ He. eapply Hst; eauto.
      - intros e' t v _ IH He. exists t. split; [left; reflexivity|auto].
      - intros a b t es v Hf _ Ha IH He. destruct (Hal a b) as [H|H]; [auto| |].
        + exists t. split; [left; reflexivity|auto].
        + destruct (H _ _ Ha) as (t' & Hin & Hp). exists t'. split; [right; exact Hin|exact Hp]. }
    split; [exact Hm|]. intros es v H. inversion H as [? t ? Hf|a b t es' ? Hf Ha]; subst.
    - exists t. split; [left; reflexivity|auto].
    - destruct (Hal a b eq_refl) as [Hx|Hx].
      + exists t. split; [left; reflexivity|auto].
      + destruct (Hx _ _ Ha) as (t' & Hin & Hp). exists t'. split; [right; exact Hin|exact Hp].
  Qed.

  Lemma gl_path e x : gl e x -> (forall s t, frag e s t -> path s x t) /\ (forall es v, alts e es v -> exists t, In (Epsilon, t) es /\ path t x v).
  Proof.
    induction 1 as [|l i Hi|r b y Hb _ [IH _]|a b x y _ [IH1 _] _ [IH2 _]|a b x _ [IH1 _]|a b x _ [_ IH2]|e|e x y _ [IH1 _] _ [IH2 _]];
      apply lift_frag; try discriminate; auto.
    - intros l0 He s lab t Ho Hs. injection He as <-. eapply p_sym; [sole Ho|apply (proj2 (same_ok _ _ Hs)); exact Hi|constructor].
    - intros r0 He s q pr t Ho Hq. injection He as <-. destruct (bodies _ _ Hb) as (v & Hf & Hv). rewrite <- (app_nil_r (wrap r y)).
      eapply p_call; [sole Ho|subst q; apply IH; exact Hf|exact Hv|constructor].
    - intros a0 b0 He s t v Ha Hbb. injection He as <- <-. eapply path_app; eauto.
    - intros a0 b0 He. injection He as <- <-. auto.
    - intros a0 b0 He. injection He as <- <-. auto.
    - intros b He s a t Ho _. eapply path_skip; [rewrite Ho; right; left; reflexivity|exact Logic.I].
    - intros b He s a t Ho Hf. injection He as <-. eapply p_silent; [rewrite Ho; left; reflexivity|exact Logic.I|]. eapply path_app; [apply IH1; exact Hf|].
      apply IH2. econstructor; eassumption.
  Qed.
  Lemma gls_path K x : gls K x -> forall s v, chain K s v -> path s x v.
  Proof.
    induction 1 as [|e K x y He _ IH]; intros s v Hc.
    - remember (@nil (gx L)) as K0 eqn:HK. induction Hc as [v|K' s l t v Ho Hl _ IH|]; [constructor| |discriminate]. eapply p_silent; [sole Ho|exact Hl|auto].
    - remember (e :: K) as K0 eqn:HK. induction Hc as [v|K' s l t v Ho Hl _ IH'|e0 K' s t v Hf Hc _]; [discriminate| |].
      + eapply p_silent; [sole Ho|exact Hl|auto].
      + injection HK as -> ->. eapply path_app; [apply (proj1 (gl_path _ _ He)); exact Hf|auto].
  Qed.

  (** ** The network's phrases are the grammar's. *)
  Lemma frag_stuck e s t : frag e s t -> out A s = [] -> t = s /\ gl e [].
  Proof.
    intros H. apply (frag_mut (fun e s t _ => out A s = [] -> t = s /\ gl e []) (fun e es v _ => es <> [])) with (g := e) (z := s) (z0 := t); [..|exact H]; clear e s t H.
    - intros e s l t v Ho _ _ _ H. congruence.
    - intros e s t l v _ IH Ho _ H. destruct (IH H) as [-> _]. congruence.
    - intros s _. split; [reflexivity|constructor].
    - intros. congruence.
    - intros. congruence.
    - intros. congruence.
    - intros a b s t v _ IH1 _ IH2 H. destruct (IH1 H) as [-> G1]. destruct (IH2 H) as [-> G2]. split; [reflexivity|]. exact (g_sq _ _ [] [] G1 G2).
    - intros e s v _ IH H. rewrite H in IH. contradiction.
    - intros. congruence.
    - intros. discriminate.
    - intros. discriminate.
  Qed.
  Lemma chain_stuck K s v : chain K s v -> out A s = [] -> v = s /\ gls K [].
  Proof.
    induction 1 as [v|K s l t v Ho _ _ IH|e K s t v Hf _ IH]; intros H.
    - split; [reflexivity|constructor].
    - congruence.
    - destruct (frag_stuck _ _ _ Hf H) as [-> G]. destruct (IH H) as [-> G']. split; [reflexivity|]. exact (gs_cons _ _ [] [] G G').
  Qed.
  (** What one transition does to the pending right-hand sides. *)
  Definition step_ok (K : list (gx L)) (v : Z) (lab : label) (t : Z) : Prop :=
    (silent lab -> exists K', chain K' t v /\ forall x, gls K' x -> gls K x) /\
    (forall i, see lab i -> exists K', chain K' t v /\ forall x, gls K' x -> gls K (i :: x)) /\
    (forall q r pr, lab = RuleT q r pr ->
       exists K', chain K' t v /\
        ((q = start_of A r /\ exists b, gbody r = Some b /\ forall y x, gl b y -> gls K' x -> gls K (wrap r y ++ x)) \/
         (inline = true /\ exists e w, frag e q w /\ out A w = [] /\ forall y x, gl e y -> gls K' x -> gls K (y ++ x)))).
  Lemma step_imp K1 K2 v lab t : (forall x, gls K1 x -> gls K2 x) -> step_ok K1 v lab t -> step_ok K2 v lab t.
  Proof.
    intros H (H1 & H2 & H3). split; [|split].
    - intros Hs. destruct (H1 Hs) as (K' & Hc & Hi). eauto.
    - intros i Hs. destruct (H2 i Hs) as (K' & Hc & Hi). eauto.
    - intros q r pr He. destruct (H3 _ _ _ He) as (K' & Hc & [(Hq & b & Hb & Hi)|(Hin & e & w & Hf & Hw & Hi)]); exists K'; (split; [exact Hc|]).
      + left. eauto 6.
      + right. eauto 8.
  Qed.
  Lemma gls_cons_inv e K x : gls (e :: K) x -> exists x1 x2, x = x1 ++ x2 /\ gl e x1 /\ gls K x2.
  Proof. intros H. inversion H; subst. eauto. Qed.
  Lemma silent_step K v l t : silent l -> chain K t v -> step_ok K v l t.
  Proof.
    intros Hl Hc. split; [eauto|]. split; [intros i Hs; apply see_sym in Hs; destruct l; contradiction|].
    intros q r pr ->. contradiction.
  Qed.
  Definition cont (K : list (gx L)) (s v : Z) : Prop := chain K s v /\ forall lab s1, In (lab, s1) (out A s) -> step_ok K v lab s1.
  Lemma frag_step e s t : frag e s t -> forall K v, cont K t v -> cont (e :: K) s v.
  Proof.
    intros H.
    apply (frag_mut (fun e s t _ => forall K v, cont K t v -> cont (e :: K) s v)
                    (fun e es u _ => forall K v, cont K u v -> forall lab s1, In (lab, s1) es -> lab = Epsilon /\ exists K', chain K' s1 v /\ forall x, gls K' x -> gls (e :: K) x))
      with (g := e) (z := s) (z0 := t); [..|exact H]; clear e s t H.
    - intros e s l t u Ho Hl Hf _ K v [Hc _]. split; [econstructor; [econstructor; eassumption|exact Hc]|]. intros lab s1 Hin. rewrite Ho in Hin. destruct Hin as [Hin|[]]. injection Hin as <- <-.
      apply silent_step; [exact Hl|]. econstructor; eassumption.
    - intros e s t l u Hf IH Ho Hl K v [Hc _]. apply IH. split; [eapply c_skip; eassumption|]. intros lab s1 Hin. rewrite Ho in Hin. destruct Hin as [Hin|[]]. injection Hin as <- <-.
      apply silent_step; assumption.
    - intros s K v [Hc Hst]. split; [econstructor; [constructor|exact Hc]|]. intros lab s1 Hin. eapply step_imp; [|apply Hst; exact Hin].
      intros x Hx. exact (gs_cons _ _ [] _ g_eps Hx).
    - intros l lab0 s t Ho Hs K v [Hc _]. split; [econstructor; [econstructor; eassumption|exact Hc]|]. intros lab s1 Hin. rewrite Ho in Hin. destruct Hin as [Hin|[]]. injection Hin as <- <-.
      split; [|split].
      + intros Hsil. destruct (same_ok _ _ Hs) as [Hy _]. destruct lab0; contradiction.
      + intros i Hi. exists K. split; [exact Hc|]. intros x Hx. apply (gs_cons _ _ [i] x); [|exact Hx]. constructor. apply (proj2 (same_ok _ _ Hs)). exact Hi.
      + intros q r pr ->. destruct (same_ok _ _ Hs) as [[] _].
    - intros r b s q pr t Ho Hq Hb K v [Hc _]. split; [econstructor; [econstructor; eassumption|exact Hc]|]. intros lab s1 Hin. rewrite Ho in Hin. destruct Hin as [Hin|[]]. injection Hin as <- <-.
      split; [intros []|]. split; [intros i Hi; apply see_sym in Hi; contradiction|].
      intros q0 r0 pr0 He. injection He as <- <- <-. exists K. split; [exact Hc|]. left. split; [exact Hq|]. exists b. split; [exact Hb|].
      intros y x Hy Hx. constructor; [econstructor; eassumption|exact Hx].
    - intros e s q r pr t w Hi Ho Hf _ Hw K v [Hc _]. split; [econstructor; [eapply f_inline; eassumption|exact Hc]|]. intros lab s1 Hin. rewrite Ho in Hin. destruct Hin as [Hin|[]]. injection Hin as <- <-.
      split; [intros []|]. split; [intros i Hs; apply see_sym in Hs; contradiction|].
      intros q0 r0 pr0 He. injection He as <- <- <-. exists K. split; [exact Hc|]. right. split; [exact Hi|]. exists e, w. split; [exact Hf|]. split; [apply stops; exact Hw|].
      intros y x Hy Hx. constructor; assumption.
    - intros a b s t u Ha IHa Hb IHb K v HK. destruct (IHa _ _ (IHb _ _ HK)) as [_ Hst]. split; [econstructor; [econstructor; eassumption|apply HK]|].
      intros lab s1 Hin. eapply step_imp; [|apply Hst; exact Hin]. intros x Hx. apply gls_cons_inv in Hx. destruct Hx as (x1 & x2 & -> & H1 & H2).
      apply gls_cons_inv in H2. destruct H2 as (x3 & x4 & -> & H3 & H4). rewrite app_assoc. constructor; [constructor; assumption|exact H4].
    - intros e s u Ha IH K v HK. split; [econstructor; [apply f_al; exact Ha|apply HK]|]. intros lab s1 Hin. destruct (IH _ _ HK _ _ Hin) as (-> & K' & Hc & Hi).
      eapply step_imp; [exact Hi|]. apply silent_step; [exact Logic.I|exact Hc].
    - intros e s a b Ho Hf IH K v HK. assert (Hfs : frag (GSt e) s b) by (eapply f_st; eassumption).
      split; [econstructor; [exact Hfs|apply HK]|]. intros lab s1 Hin. rewrite Ho in Hin. destruct Hin as [Hin|[Hin|[]]]; injection Hin as <- <-.
      + eapply step_imp; [|apply silent_step; [exact Logic.I|]; eapply (c_cons e (GSt e :: K)); [exact Hf|econstructor; [exact Hfs|apply HK]]].
        intros x Hx. apply gls_cons_inv in Hx. destruct Hx as (x1 & x2 & -> & H1 & H2). apply gls_cons_inv in H2. destruct H2 as (x3 & x4 & -> & H3 & H4).
        rewrite app_assoc. constructor; [constructor; assumption|exact H4].
      + eapply step_imp; [|apply silent_step; [exact Logic.I|apply HK]]. intros x Hx. exact (gs_cons _ _ [] _ (g_st0 e) Hx).
    - intros e t u Hf _ K v HK lab s1 [Hin|[]]. injection Hin as <- <-. split; [reflexivity|]. exists (e :: K). split; [econstructor; [exact Hf|apply HK]|auto].
    - intros a b t es u Hf _ _ IH K v HK lab s1 [Hin|Hin].
      + injection Hin as <- <-. split; [reflexivity|]. exists (a :: K). split; [econstructor; [exact Hf|apply HK]|].
        intros x Hx. apply gls_cons_inv in Hx. destruct Hx as (x1 & x2 & -> & H1 & H2). constructor; [apply g_al1; exact H1|exact H2].
      + destruct (IH _ _ HK _ _ Hin) as (-> & K' & Hc & Hi). split; [reflexivity|]. exists K'. split; [exact Hc|].
        intros x Hx. apply Hi in Hx. apply gls_cons_inv in Hx. destruct Hx as (x1 & x2 & -> & H1 & H2). constructor; [apply g_al2; exact H1|exact H2].
  Qed.
  Lemma chain_cont K s v : chain K s v -> out A v = [] -> cont K s v.
  Proof.
    induction 1 as [v|K s l t v Ho Hl Hc IH|e K s t v Hf Hc IH]; intros Hv.
    - split; [constructor|]. intros lab s1 Hin. rewrite Hv in Hin. destruct Hin.
    - split; [eapply c_skip; eassumption|]. intros lab s1 Hin. rewrite Ho in Hin. destruct Hin as [Hin|[]]. injection Hin as <- <-. apply silent_step; assumption.
    - eapply (frag_step _ _ t); [exact Hf|auto].
  Qed.
  Theorem path_gls s x t : path s x t -> stop_state A t -> forall K v, chain K s v -> out A v = [] -> t = v /\ gls K x.
  Proof.
    induction 1 as [s|s l t x v Hin Hl _ IH|s l t i x v Hin Hl _ IH|s q r pr t y e x v Hin _ IHq Hst _ IH]; intros Hs K u Hc Hu.
    - destruct (chain_stuck _ _ _ Hc (stops _ Hs)) as [-> G]. auto.
    - destruct (chain_cont _ _ _ Hc Hu) as [_ Hk]. destruct (Hk _ _ Hin) as (H1 & _). destruct (H1 Hl) as (K' & Hc' & Hi). destruct (IH Hs _ _ Hc' Hu) as [-> G]. auto.
    - destruct (chain_cont _ _ _ Hc Hu) as [_ Hk]. destruct (Hk _ _ Hin) as (_ & H1 & _). destruct (H1 i Hl) as (K' & Hc' & Hi). destruct (IH Hs _ _ Hc' Hu) as [-> G]. auto.
    - destruct (chain_cont _ _ _ Hc Hu) as [_ Hk]. destruct (Hk _ _ Hin) as (_ & _ & H1). destruct (H1 _ _ _ eq_refl) as (K' & Hc' & [(Hq & b & Hb & Hi)|(Hinl & e' & w & Hf & Hw & Hi)]);
        destruct (IH Hs _ _ Hc' Hu) as [-> G]; (split; [reflexivity|]).
      + destruct (bodies _ _ Hb) as (w & Hf & Hw). subst q.
        destruct (IHq Hst [b] w (c_cons _ _ _ _ _ Hf (c_nil _)) (stops _ Hw)) as [_ Gb]. apply gls_cons_inv in Gb. destruct Gb as (x1 & x2 & -> & G1 & G2). inversion G2; subst. rewrite app_nil_r. auto.
      + destruct (IHq Hst [e'] w (c_cons _ _ _ _ _ Hf (c_nil _)) Hw) as [_ Gb]. apply gls_cons_inv in Gb. destruct Gb as (x1 & x2 & -> & G1 & G2). inversion G2; subst. rewrite app_nil_r.
        rewrite (inline_ok Hinl). auto.
  Qed.
  (** Both directions. *)
  Theorem frag_lang e s v : frag e s v -> stop_state A v -> forall x, gl e x <-> exists t, path s x t /\ stop_state A t.
  Proof.
    intros Hf Hv x. split.
    - intros Hg. exists v. split; [apply (proj1 (gl_path _ _ Hg)); exact Hf|exact Hv].
    - intros (t & Hp & Ht). destruct (path_gls _ _ _ Hp Ht [e] v (c_cons _ _ _ _ _ Hf (c_nil _)) (stops _ Hv)) as [_ G].
      apply gls_cons_inv in G. destruct G as (x1 & x2 & -> & G1 & G2). inversion G2; subst. rewrite app_nil_r. exact G1.
  Qed.

  (** ** The checker *)
  Definition silentb (l : label) : bool := match l with Epsilon => true | _ => false end.
  (** Follow transitions that are the only one. *)
  Fixpoint nrm (n : nat) (s : Z) : Z :=
    match n with
    | O => s
    | S n' => match out A s with [(l, t)] => if silentb l then nrm n' t else s | _ => s end
    end.
  Definition nm := nrm 8.
  Definition stopb (s : Z) : bool := (0 <=? s) && match nth_error (a_states A) (Z.to_nat s) with Some q => s_type q =? 7 | None => false end.
  Fixpoint check (n : nat) (e : gx L) (s : Z) {struct n} : option Z :=
    match n with
    | O => None
    | S n' =>
        match (if inline then match out A s with
               | [(RuleT q r pr, t)] => match check n' e (nm q) with Some v => if stopb v then Some (nm t) else None | None => None end
               | _ => None
               end else None) with
        | Some v => Some v
        | None =>
            match e with
            | GEps => Some s
            | GTk l => match out A s with [(lab, t)] => if same l lab then Some (nm t) else None | _ => None end
            | GNT r => match out A s with
                       | [(RuleT q r' pr, t)] => match gbody r with Some _ => if (r' =? r) && (q =? start_of A r) then Some (nm t) else None | None => None end
                       | _ => None
                       end
            | GSq a b => match check n' a s with Some t => check n' b t | None => None end
            | GAl _ _ => checks n' e (out A s)
            | GSt e' => match out A s with
                        | [(Epsilon, a); (Epsilon, b)] => match check n' e' (nm a) with Some v => if v =? s then Some (nm b) else None | None => None end
                        | _ => None
                        end
            end
        end
    end
  with checks (n : nat) (e : gx L) (es : list (label * Z)) {struct n} : option Z :=
    match n with
    | O => None
    | S n' =>
        match es with
        | [(Epsilon, t)] => check n' e (nm t)
        | (Epsilon, t) :: es' =>
            match e with
            | GAl a b => match check n' a (nm t), checks n' b es' with Some v, Some v' => if v =? v' then Some v else None | _, _ => None end
            | _ => None
            end
        | _ => None
        end
    end.
  Lemma silentb_ok l : silentb l = true -> silent l.
  Proof. destruct l; cbn; easy. Qed.
  Lemma stopb_ok s : stopb s = true -> stop_state A s.
  Proof.
    unfold stopb, stop_state. intros H. apply andb_prop in H. destruct H as [H1 H2]. split; [lia|]. destruct (nth_error _ _) as [q|]; [|discriminate]. exists q. split; [reflexivity|lia].
  Qed.
  Lemma nrm_pre n : forall e s v, frag e (nrm n s) v -> frag e s v.
  Proof.
    induction n as [|n IH]; intros e s v H; [exact H|]. cbn in H. destruct (out A s) as [|[l t] [|]] eqn:Ho; try exact H. destruct (silentb l) eqn:Hl; [|exact H].
    eapply f_pre; [exact Ho|apply silentb_ok; exact Hl|auto].
  Qed.
  Lemma nrm_post n : forall e s t, frag e s t -> frag e s (nrm n t).
  Proof.
    induction n as [|n IH]; intros e s t H; [exact H|]. cbn. destruct (out A t) as [|[l v] [|]] eqn:Ho; try exact H. destruct (silentb l) eqn:Hl; [|exact H].
    apply IH. eapply f_post; [exact H|exact Ho|apply silentb_ok; exact Hl].
  Qed.
  Lemma check_ok n : (forall e s v, check n e s = Some v -> frag e s v) /\ (forall e es v, checks n e es = Some v -> alts e es v).
  Proof.
    clear bodies stops inline_ok see_sym same_ok. induction n as [|n [IH IHs]]; [split; discriminate|]. split.
    - intros e s v H. cbn [check] in H. destruct (if inline then _ else None) as [v0|] eqn:Hin.
      + injection H as ->. destruct inline eqn:Hil; [|discriminate]. destruct (out A s) as [|[[] t] [|]] eqn:Ho; try discriminate.
        destruct (check n e (nm start)) as [w|] eqn:Hw; [|discriminate]. destruct (stopb w) eqn:Hs; [|discriminate]. injection Hin as <-.
        apply nrm_post. eapply f_inline; [exact Hil|exact Ho|eapply nrm_pre; apply IH; exact Hw|apply stopb_ok; exact Hs].
      + clear Hin. destruct e as [|l|r|a b|a b|e].
        * injection H as <-. constructor.
        * destruct (out A s) as [|[lab t] [|]] eqn:Ho; try discriminate. destruct (same l lab) eqn:Hs; [|discriminate]. injection H as <-. apply nrm_post. econstructor; eassumption.
        * destruct (out A s) as [|[[] t] [|]] eqn:Ho; try discriminate. destruct (gbody r) as [b|] eqn:Hb; [|discriminate]. destruct (_ && _)%bool eqn:Hs; [|discriminate].
          apply andb_prop in Hs. destruct Hs as [H1 H2]. apply Z.eqb_eq in H1, H2. subst r0. injection H as <-. apply nrm_post. econstructor; eassumption.
        * destruct (check n a s) as [t|] eqn:Ha; [|discriminate]. eapply f_sq; eauto.
        * apply f_al. apply IHs. exact H.
        * destruct (out A s) as [|[[] a] [|[[] b] [|]]] eqn:Ho; try discriminate. destruct (check n e (nm a)) as [w|] eqn:Hw; [|discriminate].
          destruct (w =? s) eqn:Hs; [|discriminate]. apply Z.eqb_eq in Hs. subst w. injection H as <-. apply nrm_post. eapply f_st; [exact Ho|]. eapply nrm_pre. apply IH. exact Hw.
    - intros e es v H. cbn [checks] in H. destruct es as [|[[] t] es]; try discriminate. destruct es as [|e1 es].
      + constructor. eapply nrm_pre. apply IH. exact H.
      + destruct e; try discriminate. destruct (check n e2 (nm t)) as [v1|] eqn:H1; [|discriminate]. destruct (checks n e3 (e1 :: es)) as [v2|] eqn:H2; [|discriminate].
        destruct (v1 =? v2) eqn:Hv; [|discriminate]. apply Z.eqb_eq in Hv. subst v2. injection H as <-. constructor; [eapply nrm_pre; apply IH; exact H1|apply IHs; exact H2].
  Qed.
  Definition check_rule (n : nat) (e : gx L) (s : Z) : bool := match check n e (nm s) with Some v => stopb v | None => false end.
  Lemma check_rule_ok n e s : check_rule n e s = true -> exists v, frag e s v /\ stop_state A v.
  Proof.
    unfold check_rule. destruct (check n e (nm s)) as [v|] eqn:H; [|discriminate]. intros Hs. exists v. split; [eapply nrm_pre; apply (proj1 (check_ok n)); exact H|apply stopb_ok; exact Hs].
  Qed.
End Check.

Definition stops_out (A : atn) : bool := forallb (fun e => negb (stopb A (fst e))) (a_edges A).
Lemma stops_out_ok A : stops_out A = true -> forall s, stop_state A s -> out A s = [].
Proof.
  unfold stops_out, out. rewrite forallb_forall. intros H s [Hs (q & Hn & Hq)]. destruct (filter _ _) as [|e es] eqn:Hf; [reflexivity|]. exfalso.
  assert (Hin : In e (filter (fun e => fst e =? s) (a_edges A))) by (rewrite Hf; left; reflexivity). apply filter_In in Hin. destruct Hin as [Hin He]. apply Z.eqb_eq in He.
  specialize (H _ Hin). apply negb_true_iff in H. unfold stopb in H. rewrite He, Hn, Hq in H. destruct (0 <=? s) eqn:E; [discriminate|lia].
Qed.
