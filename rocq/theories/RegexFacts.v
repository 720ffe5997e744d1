(** Derivatives compute the declarative language. *)
From Verif Require Import Base Regex.

Lemma lang_emp s : ~ lang Emp s.
Proof. inversion 1. Qed.
Lemma lang_eps s : lang Eps s <-> s = [].
Proof. split; [inversion 1; auto | intros ->; constructor]. Qed.
Lemma lang_chr c s : lang (Chr c) s <-> exists x, s = [x] /\ in_cls c x = true.
Proof. split; [inversion 1; eauto | intros [x [-> ?]]; constructor; auto]. Qed.
Lemma lang_cat r t s : lang (Cat r t) s <-> exists x y, s = x ++ y /\ lang r x /\ lang t y.
Proof. split; [inversion 1; subst; eauto | intros (x & y & -> & ? & ?); constructor; auto]. Qed.
Lemma lang_bar r t s : lang (Bar r t) s <-> lang r s \/ lang t s.
Proof. split; [inversion 1; auto | intros [?|?]; [apply l_barl | apply l_barr]; auto]. Qed.

Lemma lang_cat' r t s : lang (cat r t) s <-> lang (Cat r t) s.
Proof.
  destruct r; cbn; try reflexivity;
  try (destruct t; cbn; try reflexivity; rewrite lang_cat; split;
    [intros H; exfalso; revert H; apply lang_emp
    |intros (x & y & _ & _ & H); exfalso; revert H; apply lang_emp]).
  - rewrite lang_cat. split; [intros H; exfalso; revert H; apply lang_emp|].
    intros (x & y & _ & H & _); exfalso; revert H; apply lang_emp.
  - rewrite lang_cat. split.
    + intros H. exists [], s. repeat split; auto; constructor.
    + intros (x & y & -> & Hx & Hy). apply lang_eps in Hx. subst. exact Hy.
Qed.

Lemma lang_bar' r t s : lang (bar r t) s <-> lang (Bar r t) s.
Proof.
  assert (H1 : lang t s <-> lang (Bar Emp t) s).
  { rewrite lang_bar. split; [auto|]. intros [H|H]; [exfalso; revert H; apply lang_emp|auto]. }
  assert (H2 : lang r s <-> lang (Bar r Emp) s).
  { rewrite lang_bar. split; [auto|]. intros [H|H]; [auto|exfalso; revert H; apply lang_emp]. }
  destruct r; cbn; try exact H1; destruct t; cbn; try reflexivity; exact H2.
Qed.

Lemma nullable_lang r : nullable r = true <-> lang r [].
Proof.
  induction r as [| |c|r IHr t IHt|r IHr t IHt|r IHr]; cbn.
  - split; [discriminate | intros H; exfalso; revert H; apply lang_emp].
  - split; constructor.
  - split; [discriminate|]. intros H. apply lang_chr in H. destruct H as [x [H _]]. discriminate.
  - rewrite andb_true_iff, IHr, IHt, lang_cat. split.
    + intros [H1 H2]. exists [], []. auto.
    + intros (x & y & H & Hx & Hy). symmetry in H. apply app_eq_nil in H. destruct H; subst. auto.
  - rewrite orb_true_iff, IHr, IHt, lang_bar. reflexivity.
  - split; constructor.
Qed.

Lemma lang_rep_cons r x s :
  lang (Rep r) (x :: s) <-> exists a b, s = a ++ b /\ lang r (x :: a) /\ lang (Rep r) b.
Proof.
  split.
  - intros H. remember (Rep r) as R eqn:HR. remember (x :: s) as w eqn:Hw.
    revert x s Hw. induction H as [| | | | | r' | r' a b Ha _ Hb IHb]; try discriminate; intros x s Hw.
    + injection HR as ->. destruct a as [|y a].
      * cbn in Hw. auto.
      * cbn in Hw. injection Hw as -> <-. exists a, b. auto.
  - intros (a & b & -> & Ha & Hb). change (x :: a ++ b) with ((x :: a) ++ b). constructor; auto.
Qed.

Lemma deriv_lang x r : forall s, lang (deriv x r) s <-> lang r (x :: s).
Proof.
  induction r as [| |c|r IHr t IHt|r IHr t IHt|r IHr]; intros s; cbn.
  - split; intros H; exfalso; revert H; apply lang_emp.
  - split; intros H; [exfalso; revert H; apply lang_emp|].
    apply lang_eps in H. discriminate.
  - destruct (in_cls c x) eqn:Hc.
    + rewrite lang_eps, lang_chr. split.
      * intros ->. exists x. auto.
      * intros [y [H _]]. injection H as _ H. exact H.
    + split; intros H; [exfalso; revert H; apply lang_emp|].
      apply lang_chr in H. destruct H as [y [H Hy]]. injection H as -> _. congruence.
  - assert (Hc : lang (cat (deriv x r) t) s <-> exists a b, s = a ++ b /\ lang r (x :: a) /\ lang t b).
    { rewrite lang_cat', lang_cat. split; intros (a & b & -> & Ha & Hb); exists a, b;
      (split; [reflexivity|split; [apply IHr; exact Ha|exact Hb]]). }
    destruct (nullable r) eqn:Hn.
    + rewrite lang_bar', lang_bar, Hc, IHt, lang_cat. split.
      * intros [(a & b & -> & Ha & Hb) | H].
        { exists (x :: a), b. auto. }
        { exists [], (x :: s). rewrite nullable_lang in Hn. auto. }
      * intros (a & b & Hab & Ha & Hb). destruct a as [|y a].
        { cbn in Hab. subst b. auto. }
        { cbn in Hab. injection Hab as <- ->. left. eauto. }
    + rewrite Hc, lang_cat. split.
      * intros (a & b & -> & Ha & Hb). exists (x :: a), b. auto.
      * intros (a & b & Hab & Ha & Hb). destruct a as [|y a].
        { exfalso. apply nullable_lang in Ha. congruence. }
        { cbn in Hab. injection Hab as <- ->. eauto. }
  - rewrite lang_bar', !lang_bar, IHr, IHt. reflexivity.
  - rewrite lang_cat', lang_cat, lang_rep_cons. split.
    + intros (a & b & -> & Ha & Hb). exists a, b. rewrite <- IHr. auto.
    + intros (a & b & -> & Ha & Hb). exists a, b. rewrite IHr. auto.
Qed.

Lemma void_lang r : void r = true -> forall s, ~ lang r s.
Proof.
  induction r as [| |c|r IHr t IHt|r IHr t IHt|r IHr]; cbn; intros Hv s H; try discriminate.
  - revert H. apply lang_emp.
  - apply lang_cat in H. destruct H as (a & b & _ & Ha & Hb).
    apply orb_true_iff in Hv. destruct Hv as [Hv|Hv]; [eapply IHr | eapply IHt]; eauto.
  - apply lang_bar in H. apply andb_true_iff in Hv. destruct Hv as [Hv1 Hv2].
    destruct H as [H|H]; [eapply IHr | eapply IHt]; eauto.
Qed.

(** Boolean matching. *)
Definition matches (r : regex) (w : pystr) : bool := nullable (fold_left (fun r c => deriv c r) w r).

Lemma matches_lang w : forall r, matches r w = true <-> lang r w.
Proof.
  unfold matches. induction w as [|c w IH]; intros r; cbn [fold_left].
  - apply nullable_lang.
  - rewrite IH. apply deriv_lang.
Qed.

Lemma matches_cons r c w : matches r (c :: w) = matches (deriv c r) w.
Proof. reflexivity. Qed.
Lemma void_matches r w : void r = true -> matches r w = false.
Proof.
  intros H. destruct (matches r w) eqn:E; [|reflexivity].
  apply matches_lang in E. exfalso. eapply void_lang; eauto.
Qed.
