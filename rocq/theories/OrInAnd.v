(** Where [|] ends up inside [&]: only behind a [!]. *)
From Verif Require Import Base LexRules Lexer Grammar Antlr GramSpec GramFacts SimFacts LevelFacts SelFacts PrecFacts PrecConv.
Local Open Scope Z_scope.

Lemma derives_level r ch : level_rule r = true -> derives (NT r) [Node r ch] -> exists jss, wlevel jss (leaves (Node r ch)).
Proof. intros Hr H. inversion H; subst. exact (levelled_all (Node r ch) Hr ltac:(assumption)). Qed.

(** A level that does not start with [!]: an atom, then [& factors], then [| terms]. *)
Lemma level_open js jss ts : wlevel ((0%nat :: js) :: jss) ts -> exists a x1 x2, ts = a ++ x1 ++ x2 /\ atom a /\ viable [St andl] (types x1) /\
  (jss = [] /\ x2 = [] \/ exists k y, x2 = k :: y /\ t_type k = OR /\ wlevel jss y).
Proof.
  assert (T : forall f, wterm (0%nat :: js) f -> exists a x1, f = a ++ x1 /\ atom a /\ viable [St andl] (types x1)).
  { intros f H. inversion H as [j f' Hf|j f' k js' ts' Hf Hk Ht]; subst.
    - inversion Hf; subst. exists f, []. rewrite app_nil_r. split; [reflexivity|]. split; [assumption|apply vst0].
    - inversion Hf; subst. exists f', (k :: ts'). split; [reflexivity|]. split; [assumption|]. cbn [map]. rewrite Hk. eapply lang_and_rest. exact Ht. }
  intros H. inversion H as [js' f Ht|js' f k jss' ts' Ht Hk Hl]; subst.
  - destruct (T _ Ht) as (a & x1 & -> & Ha & H1). exists a, x1, []. rewrite app_nil_r. auto 6.
  - destruct (T _ Ht) as (a & x1 & -> & Ha & H1). exists a, x1, (k :: ts'). rewrite <- app_assoc. split; [reflexivity|]. split; [exact Ha|]. split; [exact H1|]. right. eauto.
Qed.
(** [& operands] behind a level is a level. *)
Lemma and_tail y : derives (St andl) y -> forall jss ts, wlevel jss ts -> exists jss', wlevel jss' (ts ++ flat_map leaves y).
Proof.
  intros Hd. assert (HF : Forall levelled y) by (apply Forall_forall; intros t _; apply levelled_all).
  apply (levelled_loop AND A4 y Hd (or_introl eq_refl)); [|exact HF].
  intros x Hx HF'. alts; eapply levelled_alt; try eassumption; reflexivity.
Qed.
Lemma viable_types y w : ttypes y = types w -> types (flat_map leaves y) = types w.
Proof. auto. Qed.

(** Words only matter by their types. *)
Lemma atom_types a b : types a = types b -> atom a -> atom b.
Proof. unfold atom. intros ->. auto. Qed.
Lemma wlevel_types jss a : wlevel jss a -> forall b, types a = types b -> wlevel jss b.
Proof.
  assert (F : forall j f, wfactor j f -> forall b, types f = types b -> wfactor j b).
  { induction 1 as [ts H|j k ts Hk _ IH]; intros b Hb; [constructor; eapply atom_types; eassumption|].
    destruct b as [|k' b]; [discriminate|]. cbn in Hb. injection Hb as Hk' Hb. constructor; [congruence|apply IH; exact Hb]. }
  assert (S : forall (x : list token) k y b, types (x ++ k :: y) = types b -> exists x' k' y', b = x' ++ k' :: y' /\ types x = types x' /\ t_type k = t_type k' /\ types y = types y').
  { induction x as [|t x IH]; intros k y b Hb; destruct b as [|t' b]; try discriminate Hb; cbn in Hb; injection Hb as Ht Hb.
    - exists [], t', b. auto.
    - destruct (IH _ _ _ Hb) as (x' & k' & y' & -> & A & B & D). exists (t' :: x'), k', y'. cbn. rewrite Ht, A. auto. }
  assert (T : forall js f, wterm js f -> forall b, types f = types b -> wterm js b).
  { induction 1 as [j f Hf|j f k js ts Hf Hk _ IH]; intros b Hb; [constructor; eapply F; eassumption|].
    destruct (S _ _ _ _ Hb) as (x' & k' & y' & -> & A & B & D). constructor; [eapply F; eassumption|congruence|apply IH; exact D]. }
  induction 1 as [js f Hf|js f k jss ts Hf Hk _ IH]; intros b Hb; [constructor; eapply T; eassumption|].
  destruct (S _ _ _ _ Hb) as (x' & k' & y' & -> & A & B & D). constructor; [eapply T; eassumption|congruence|apply IH; exact D].
Qed.

(** The context of an [&] node: an operand of [|], or a place where a [|] node was not possible. *)
Definition or_ctx (K : list ebnf) (s : list token) : Prop :=
  (exists K', K = St orl :: K' \/ K = Pl orl :: K') \/ ~ viable (eo :: K) (types s).

Lemma viable_st_app e K w1 w2 : viable [St e] w1 -> viable (St e :: K) w2 -> viable (St e :: K) (w1 ++ w2).
Proof.
  intros H1 H2. apply viable_one in H1. destruct H1 as (x & Hx & <-). remember (St e) as s eqn:Hs. revert w2 H2.
  induction Hx as [| | | | | | | |e1|e1 x y Hx _ Hy IH]; try discriminate Hs; intros w2 H2; [exact H2|].
  injection Hs as ->. rewrite ttypes_app, <- app_assoc. apply viable_st. left.
  apply (viable_cons e (St e :: K)); [apply viable_one; eauto|]. apply IH; auto.
Qed.
Lemma viable_pl_app e K w1 w2 : viable [St e] w1 -> viable (Pl e :: K) w2 -> viable (Pl e :: K) (w1 ++ w2).
Proof.
  intros H1 H2. apply viable_st in H1. destruct H1 as [H1|H1]; [|apply viable_nil_inv in H1; subst; exact H2].
  apply viable_cons_inv in H1. destruct H1 as (a & b & -> & Ha & Hb). rewrite <- app_assoc. apply viable_pl. apply (viable_cons e (St e :: K)); [exact Ha|].
  apply viable_st_app; [exact Hb|]. apply viable_pl in H2. apply viable_st. auto.
Qed.

Lemma A4_level x : derives A4 x -> exists jss, wlevel jss (flat_map leaves x).
Proof.
  intros Hx. assert (HF : Forall levelled x) by (apply Forall_forall; intros t _; apply levelled_all).
  alts; eapply levelled_alt; try eassumption; reflexivity.
Qed.
Lemma A3_level x : derives A3 x -> exists jss, wlevel jss (flat_map leaves x).
Proof.
  intros Hx. assert (HF : Forall levelled x) by (apply Forall_forall; intros t _; apply levelled_all).
  alts; eapply levelled_alt; try eassumption; reflexivity.
Qed.
(** An operand of [&]: what stands before it, how it was selected, what follows. *)
Lemma and_pick m : forall z K s rr, (List.length z <= m)%nat -> selects (St andl) K s z rr ->
  forall P0 jss0, wlevel jss0 P0 -> forall r ch, In (Node r ch) z ->
  exists P jssP k s2 r2 z2, wlevel jssP P /\ P0 ++ s = P ++ k :: s2 /\ t_type k = AND /\
    selects A4 (St andl :: K) s2 [Node r ch] r2 /\ selects (St andl) K r2 z2 rr.
Proof.
  induction m as [|m IH]; intros z K s rr Hm Hs P0 jss0 H0 r ch Hin; [destruct z; [destruct Hin|cbn in Hm; lia]|].
  apply sel_st in Hs. destruct Hs as [[-> _]|Hs]; [destruct Hin|].
  apply sel_sq in Hs. destruct Hs as (x & z' & r1 & -> & H1 & H2). apply sel_sq in H1. destruct H1 as (x1 & x2 & r0 & -> & Hk & H1).
  apply sel_tk in Hk. destruct Hk as (k & -> & -> & [Hk|[]]). pose proof (sel_drv _ _ _ _ _ H1) as Hd. destruct (A4_one _ Hd) as (t & -> & _).
  destruct Hin as [E|[E|Hin]]; [discriminate| |].
  - subst t. exists P0, jss0, k, r0, r1, z'. auto 8.
  - pose proof (sel_eq _ _ _ _ _ H1) as E1. cbn [flat_map] in E1. rewrite app_nil_r in E1. destruct (A4_level _ Hd) as (jt & Hjt). cbn [flat_map] in Hjt. rewrite app_nil_r in Hjt.
    destruct (wl_and _ _ H0 _ _ k (eq_sym Hk) Hjt) as (jss1 & Hw).
    destruct (IH z' K r1 rr ltac:(cbn in Hm; lia) H2 _ _ Hw r ch Hin) as (P & jssP & k' & s2 & r2 & z2 & A & B & D & F & G).
    exists P, jssP, k', s2, r2, z2. split; [exact A|]. split; [|auto]. rewrite <- B, E1, <- app_assoc. reflexivity.
Qed.
Lemma lops_or jss : In OR (lops jss) -> (2 <= List.length jss)%nat.
Proof.
  destruct jss as [|js [|js' jss]]; cbn [List.length]; try lia; intros H.
  - destruct H.
  - cbn in H. rewrite app_nil_r in H. apply repeat_spec in H. discriminate.
Qed.
Lemma lops_many js js' jss : In OR (lops (js :: js' :: jss)).
Proof. cbn. apply in_or_app. right. left. reflexivity. Qed.
Lemma wlevel_not j js jss ts : wlevel ((S j :: js) :: jss) ts -> exists k w, ts = k :: w /\ t_type k = NOT.
Proof.
  assert (F : forall f, wfactor (S j) f -> exists k w, f = k :: w /\ t_type k = NOT) by (intros f Hf; inversion Hf; subst; eauto).
  assert (T : forall f, wterm (S j :: js) f -> exists k w, f = k :: w /\ t_type k = NOT).
  { intros f H. inversion H as [? ? Hy|? g k' js' ts' Hy Hk Ht']; subst; destruct (F _ Hy) as (k & w & -> & Hk0); eexists _, _; (split; [reflexivity|exact Hk0]). }
  intros H. inversion H as [? ? Hy|? g k' jss' ts' Hy Hk Ht']; subst; destruct (T _ Hy) as (k & w & -> & Hk0); eexists _, _; (split; [reflexivity|exact Hk0]).
Qed.

Lemma or_in_and K s ch rr : selects ea K s [Node expression_and ch] rr -> viable K (types rr) -> or_ctx K s ->
  forall cho, In (Node expression_or cho) ch -> exists k w, leaves (Node expression_or cho) = k :: w /\ t_type k = NOT.
Proof.
  intros Hsel HK Hctx cho Hin. pose proof (sel_eq _ _ _ _ _ Hsel) as Es. cbn [flat_map] in Es. rewrite app_nil_r in Es. pose proof (sel_drv _ _ _ _ _ Hsel) as Hdand.
  pose proof Hsel as Hsel0. apply sel_nt in Hsel. destruct Hsel as (ch' & Heq & Hsel). injection Heq as <-. cbn [body] in Hsel.
  apply sel_sq in Hsel. destruct Hsel as (y & z & r1 & -> & H1 & H2). pose proof (sel_drv _ _ _ _ _ H1) as Hd1. destruct (A3_one _ Hd1) as (t1 & -> & _).
  destruct Hin as [E|Hin].
  { exfalso. subst t1. alts; match goal with H : derives (NT _) _ |- _ => inversion H end. }
  destruct (A3_level _ Hd1) as (j1 & Hj1). cbn [flat_map] in Hj1. rewrite app_nil_r in Hj1.
  pose proof (sel_eq _ _ _ _ _ H1) as E1. cbn [flat_map] in E1. rewrite app_nil_r in E1.
  assert (Hst : selects (St andl) K r1 z rr).
  { apply sel_pl in H2. apply s_st1; [|exact H2]. apply (proj1 (viable_sq andl (St andl) K (types r1))). eapply selects_viable; [exact H2|exact HK]. }
  destruct (and_pick _ z K r1 rr (le_n _) Hst _ _ Hj1 _ _ Hin) as (P & jssP & k & s2 & r2 & z2 & HP & EP & Hk & Hsel4 & Hz2).
  rewrite <- E1 in EP.
  assert (HK2 : viable (St andl :: K) (types r2)) by (eapply selects_viable; [exact Hz2|exact HK]).
  apply sel_al in Hsel4. destruct Hsel4 as [X|[Nb Hsel4]]; [apply sel_nt in X; destruct X as (? & X & _); discriminate|].
  apply sel_al in Hsel4. destruct Hsel4 as [X|[Ng Hsel4]]; [apply sel_nt in X; destruct X as (? & X & _); discriminate|].
  apply sel_al in Hsel4. destruct Hsel4 as [Hso|[_ X]]; [|apply sel_nt in X; destruct X as (? & X & _); discriminate].
  pose proof (sel_eq _ _ _ _ _ Hso) as E2. cbn [flat_map] in E2. rewrite app_nil_r in E2. pose proof (sel_drv _ _ _ _ _ Hso) as Hdo.
  destruct (derives_level expression_or cho eq_refl Hdo) as (jss & Hjss). pose proof (wl_all _ _ Hjss) as Hall.
  destruct jss as [|[|[|j] js] jss]; [destruct (wlevel_ne _ _ Hjss eq_refl)|inversion Hall; contradiction| |exact (wlevel_not _ _ _ _ Hjss)].
  exfalso. destruct (level_open _ _ _ Hjss) as (a & x1 & x2 & El & Ha & Hx1 & Hx2).
  enough (Hv : viable (St andl :: K) (types (x1 ++ x2 ++ r2))).
  { assert (Eq : types s2 = types a ++ types (x1 ++ x2 ++ r2)) by (rewrite E2, El, <- !app_assoc, !map_app; reflexivity).
    destruct Ha as [Ha|Ha]; [apply Nb|apply Ng]; rewrite Eq; apply viable_cons; assumption. }
  destruct Hx2 as [[-> ->]|(ko & y & -> & Hko & Hy)].
  { cbn [app]. rewrite map_app. apply viable_st_app; assumption. }
  pose proof (sel_eq _ _ _ _ _ Hz2) as E3. pose proof (sel_drv _ _ _ _ _ Hz2) as Hdz2. destruct (and_tail _ Hdz2 _ _ Hy) as (jss' & Hjy).
  pose proof (lang_or_rest _ _ Hjy) as Hor.
  assert (Eq : types (x1 ++ (ko :: y) ++ r2) = types x1 ++ (OR :: types (y ++ flat_map leaves z2)) ++ types rr).
  { rewrite E3, !map_app. cbn [map app]. rewrite Hko, <- !app_assoc. reflexivity. }
  rewrite Eq. destruct Hctx as [(K' & [-> | ->])|Hno].
  - apply viable_cons; [exact Hx1|]. apply viable_st_app; assumption.
  - apply viable_cons; [exact Hx1|]. apply viable_pl_app; assumption.
  - exfalso. apply Hno. rewrite Es, map_app. apply viable_cons; [|exact HK].
    destruct (derives_level expression_and ([t1] ++ z) eq_refl Hdand) as (jA & HjA). apply (lang_or _ _ HjA), lops_or.
    destruct (wlevel_props _ _ HjA) as [_ <-].
    assert (EA : leaves (Node expression_and ([t1] ++ z)) = P ++ k :: leaves (Node expression_or cho) ++ flat_map leaves z2).
    { apply (app_inv_tail rr). rewrite <- Es, EP, E2, E3, <- !app_assoc. cbn [app]. rewrite <- !app_assoc. reflexivity. }
    rewrite EA, map_app. destruct (wlevel_props _ _ HP) as [BP _]. rewrite (ops_app _ _ BP). apply in_or_app. right. cbn [map]. rewrite Hk, ops_op by reflexivity. right.
    rewrite map_app. destruct (wlevel_props _ _ Hjss) as [BO EO]. rewrite (ops_app _ _ BO). apply in_or_app. left.
    rewrite EO. destruct jss as [|js' jss]; [destruct (wlevel_ne _ _ Hy eq_refl)|]. apply lops_many.
Qed.
