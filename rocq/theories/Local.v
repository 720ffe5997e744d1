(** Between brackets the selected derivation does not depend on what stands outside. *)
From Verif Require Import Base LexRules Lexer Grammar Antlr GramSpec GramFacts LevelFacts SelFacts.
Local Open Scope Z_scope.

Notation types := (map t_type).
(** [K] leads from depth [d] to depth 0. *)
Fixpoint goes (d : Z) (K : list ebnf) : Prop :=
  match K with
  | [] => d = 0
  | e :: K' => exists n dl, eff e = Some (n, dl) /\ n <= d /\ goes (d + dl) K'
  end.
Lemma derives_all_goes K fs : derives_all K fs -> forall d, goes d K -> run d (ttypes fs) = Some 0.
Proof.
  induction 1 as [|e K x y Hx _ IH]; intros d Hg; cbn [goes] in Hg; [subst; reflexivity|].
  destruct Hg as (n & dl & He & Hn & Hg). rewrite ttypes_app, run_app, (derives_run _ _ Hx _ _ He d Hn). apply IH. exact Hg.
Qed.
Lemma viable_goes K w d : viable K w -> goes d K -> run d w = Some 0.
Proof. intros (fs & Hd & <-) Hg. exact (derives_all_goes _ _ Hd _ Hg). Qed.
Lemma run_stop d a c z : run d a = Some 0 -> closes c = true -> run d (a ++ c :: z) = None.
Proof. intros Ha Hc. rewrite run_app, Ha. cbn [run]. destruct c; try discriminate Hc; reflexivity. Qed.
Lemma run_unique d a a' c c' s s' : run d a = Some 0 -> run d a' = Some 0 -> closes c = true -> closes c' = true -> a ++ c :: s = a' ++ c' :: s' -> a = a' /\ c = c' /\ s = s'.
Proof.
  intros Ha Ha' Hc Hc' H. apply app_eq_app in H. destruct H as (l & [[-> H]|[-> H]]).
  - destruct l as [|x l]; [rewrite app_nil_r in *; injection H as -> ->; auto|]. cbn in H. injection H as -> _. rewrite (run_stop _ _ _ _ Ha' Hc') in Ha. discriminate.
  - destruct l as [|x l]; [rewrite app_nil_r in *; injection H as -> ->; auto|]. cbn in H. injection H as -> _. rewrite (run_stop _ _ _ _ Ha Hc) in Ha'. discriminate.
Qed.
Lemma viable_inside d Ks c K w R : goes d Ks -> run d w = Some 0 -> closes c = true -> viable K R ->
  (viable (Ks ++ Tk [c] :: K) (w ++ c :: R) <-> viable Ks w).
Proof.
  intros Hg Hw Hc HK. split.
  - intros H. apply viable_split in H. destruct H as (w1 & w2 & Heq & H1 & H2). apply viable_tk_inv in H2. destruct H2 as (t & w' & -> & [<-|[]] & H2).
    destruct (run_unique d _ _ _ _ _ _ Hw (viable_goes _ _ _ H1 Hg) Hc Hc Heq) as (-> & _ & ->). exact H1.
  - intros H1. apply viable_app2; [exact H1|]. apply viable_tk; [left; reflexivity|exact HK].
Qed.

Lemma goes_sq d a b K : goes d (Sq a b :: K) -> goes d (a :: b :: K).
Proof.
  cbn [goes eff]. intros (n & dl & He & Hn & Hg). destruct (eff a) as [[na da]|]; [|discriminate]. destruct (eff b) as [[nb db]|]; [|discriminate]. injection He as <- <-.
  exists na, da. split; [reflexivity|]. split; [lia|]. exists nb, db. split; [reflexivity|]. split; [lia|]. replace (d + da + db) with (d + (da + db)) by lia. exact Hg.
Qed.
Lemma goes_al d a b K : goes d (Al a b :: K) -> goes d (a :: K) /\ goes d (b :: K).
Proof.
  cbn [goes eff]. intros (n & dl & He & Hn & Hg). destruct (eff a) as [[na da]|]; [|discriminate]. destruct (eff b) as [[nb db]|]; [|discriminate]. destruct (Z.eqb_spec da db); [|discriminate]. injection He as <- <-. subst db.
  split; [exists na, da|exists nb, da]; (split; [reflexivity|split; [lia|exact Hg]]).
Qed.
Lemma goes_op d e K : goes d (Op e :: K) -> goes d (e :: K) /\ goes d K.
Proof.
  cbn [goes eff]. intros (n & dl & He & Hn & Hg). destruct (eff e) as [[n0 [| |]]|]; try discriminate. injection He as <- <-. split; [exists n0, 0; auto|]. replace d with (d + 0) by lia. exact Hg.
Qed.
Lemma goes_st d e K : goes d (St e :: K) -> goes d (Sq e (St e) :: K) /\ goes d (e :: St e :: K) /\ goes d K.
Proof.
  cbn [goes eff]. intros (n & dl & He & Hn & Hg). destruct (eff e) as [[n0 [| |]]|]; try discriminate. injection He as <- <-. split; [|split].
  - exists (Z.max n0 (n0 - 0)), 0. split; [reflexivity|]. split; [lia|exact Hg].
  - exists n0, 0. split; [reflexivity|]. split; [exact Hn|]. exists n0, 0. split; [reflexivity|]. split; [lia|]. replace (d + 0 + 0) with (d + 0) by lia. exact Hg.
  - replace d with (d + 0) by lia. exact Hg.
Qed.
Lemma goes_pl d e K : goes d (Pl e :: K) -> goes d (Sq e (St e) :: K).
Proof. intros H. apply (goes_st d e K). exact H. Qed.
Lemma goes_nt d r K : goes d (NT r :: K) -> goes d (body r :: K).
Proof. cbn [goes eff]. intros (n & dl & He & Hn & Hg). injection He as <- <-. exists 0, 0. rewrite eff_body. auto. Qed.
Lemma goes_tk d l K t w : goes d (Tk l :: K) -> In (t_type t) l -> run d (t_type t :: w) = Some 0 -> exists d', goes d' K /\ run d' w = Some 0.
Proof.
  cbn [goes]. intros (n & dl & He & Hn & Hg) Hin Hr. exists (d + dl). split; [exact Hg|].
  pose proof (derives_run (Tk l) [Leaf t] (d_tk _ _ Hin) _ _ He d Hn) as H. change (ttypes [Leaf t]) with [t_type t] in H.
  change (t_type t :: w) with ([t_type t] ++ w) in Hr. rewrite run_app, H in Hr. exact Hr.
Qed.
Lemma goes_tk_closed l K t : goes 0 (Tk l :: K) -> In (t_type t) l -> closes (t_type t) = true -> False.
Proof.
  cbn [goes]. intros (n & dl & He & Hn & Hg) Hin Hc. pose proof (derives_run (Tk l) [Leaf t] (d_tk _ _ Hin) _ _ He 0 Hn) as H. change (ttypes [Leaf t]) with [t_type t] in H.
  pose proof (run_stop 0 [] (t_type t) [] eq_refl Hc) as H2. cbn [app] in H2. congruence.
Qed.

Lemma sel_local e K0 ts x r : selects e K0 ts x r ->
  forall d Ks c K kc R w, K0 = Ks ++ Tk [c] :: K -> ts = w ++ kc :: R -> t_type kc = c -> closes c = true -> viable K (types R) ->
  goes d (e :: Ks) -> run d (types w) = Some 0 ->
  exists d' w', r = w' ++ kc :: R /\ goes d' Ks /\ run d' (types w') = Some 0 /\
    forall c2 K2 kc2 R2, t_type kc2 = c2 -> closes c2 = true -> viable K2 (types R2) ->
      selects e (Ks ++ Tk [c2] :: K2) (w ++ kc2 :: R2) x (w' ++ kc2 :: R2).
Proof.
  assert (V : forall d Ks c K kc R w, t_type kc = c -> closes c = true -> viable K (types R) -> goes d Ks -> run d (types w) = Some 0 ->
    (viable (Ks ++ Tk [c] :: K) (types (w ++ kc :: R)) <-> viable Ks (types w))).
  { intros d Ks c K kc R w Hk Hc HK Hg Hr. rewrite map_app. cbn [map]. rewrite Hk. eapply viable_inside; eassumption. }
  induction 1 as [l K0 t ts Hin|r K0 ts ch rest H IH|a b K0 ts x r1 y r2 Ha IHa Hb IHb|a b K0 ts x r Hv H IH|a b K0 ts x r Hv H IH|e K0 ts x r Hv H IH|e K0 ts Hv|e K0 ts x r H IH|e K0 ts x r Hv H IH|e K0 ts Hv];
    intros d Ks c K kc R w -> Hts Hk Hc HK Hg Hr.
  - destruct w as [|t' w]; cbn [app] in Hts; injection Hts as <- ->.
    + cbn in Hr. injection Hr as ->. exfalso. eapply goes_tk_closed; [exact Hg|exact Hin|rewrite Hk; exact Hc].
    + destruct (goes_tk _ _ _ _ _ Hg Hin Hr) as (d' & Hg' & Hr'). exists d', w. split; [reflexivity|]. split; [exact Hg'|]. split; [exact Hr'|]. intros. cbn [app]. apply s_tk. exact Hin.
  - destruct (IH d Ks c K kc R w eq_refl Hts Hk Hc HK (goes_nt _ _ _ Hg) Hr) as (d' & w' & -> & Hg' & Hr' & Hx). exists d', w'. split; [reflexivity|]. split; [exact Hg'|]. split; [exact Hr'|]. intros. apply s_nt. apply Hx; assumption.
  - apply goes_sq in Hg. destruct (IHa d (b :: Ks) c K kc R w eq_refl Hts Hk Hc HK Hg Hr) as (d1 & w1 & -> & Hg1 & Hr1 & Hx1).
    destruct (IHb d1 Ks c K kc R w1 eq_refl eq_refl Hk Hc HK Hg1 Hr1) as (d2 & w2 & -> & Hg2 & Hr2 & Hx2). exists d2, w2. split; [reflexivity|]. split; [exact Hg2|]. split; [exact Hr2|].
    intros. eapply s_sq; [apply Hx1; assumption|apply Hx2; assumption].
  - destruct (goes_al _ _ _ _ Hg) as [Ga Gb]. destruct (IH d Ks c K kc R w eq_refl Hts Hk Hc HK Ga Hr) as (d' & w' & -> & Hg' & Hr' & Hx). exists d', w'. split; [reflexivity|]. split; [exact Hg'|]. split; [exact Hr'|].
    intros c2 K2 kc2 R2 Hk2 Hc2 HK2. apply s_al1; [|apply Hx; assumption]. rewrite Hts in Hv. apply (V d (a :: Ks) c K kc R w Hk Hc HK Ga Hr) in Hv. apply (V d (a :: Ks) c2 K2 kc2 R2 w Hk2 Hc2 HK2 Ga Hr). exact Hv.
  - destruct (goes_al _ _ _ _ Hg) as [Ga Gb]. destruct (IH d Ks c K kc R w eq_refl Hts Hk Hc HK Gb Hr) as (d' & w' & -> & Hg' & Hr' & Hx). exists d', w'. split; [reflexivity|]. split; [exact Hg'|]. split; [exact Hr'|].
    intros c2 K2 kc2 R2 Hk2 Hc2 HK2. apply s_al2; [|apply Hx; assumption]. intros Hn. apply Hv. rewrite Hts. apply (V d (a :: Ks) c K kc R w Hk Hc HK Ga Hr). apply (V d (a :: Ks) c2 K2 kc2 R2 w Hk2 Hc2 HK2 Ga Hr). exact Hn.
  - destruct (goes_op _ _ _ Hg) as [Ga Gb]. destruct (IH d Ks c K kc R w eq_refl Hts Hk Hc HK Ga Hr) as (d' & w' & -> & Hg' & Hr' & Hx). exists d', w'. split; [reflexivity|]. split; [exact Hg'|]. split; [exact Hr'|].
    intros c2 K2 kc2 R2 Hk2 Hc2 HK2. apply s_op1; [|apply Hx; assumption]. rewrite Hts in Hv. apply (V d (e :: Ks) c K kc R w Hk Hc HK Ga Hr) in Hv. apply (V d (e :: Ks) c2 K2 kc2 R2 w Hk2 Hc2 HK2 Ga Hr). exact Hv.
  - destruct (goes_op _ _ _ Hg) as [Ga Gb]. exists d, w. split; [exact Hts|]. split; [exact Gb|]. split; [exact Hr|].
    intros c2 K2 kc2 R2 Hk2 Hc2 HK2. apply s_op0. intros Hn. apply Hv. rewrite Hts. apply (V d (e :: Ks) c K kc R w Hk Hc HK Ga Hr). apply (V d (e :: Ks) c2 K2 kc2 R2 w Hk2 Hc2 HK2 Ga Hr). exact Hn.
  - destruct (IH d Ks c K kc R w eq_refl Hts Hk Hc HK (goes_pl _ _ _ Hg) Hr) as (d' & w' & -> & Hg' & Hr' & Hx). exists d', w'. split; [reflexivity|]. split; [exact Hg'|]. split; [exact Hr'|]. intros. apply s_pl. apply Hx; assumption.
  - destruct (goes_st _ _ _ Hg) as (G1 & G2 & G3). destruct (IH d Ks c K kc R w eq_refl Hts Hk Hc HK G1 Hr) as (d' & w' & -> & Hg' & Hr' & Hx). exists d', w'. split; [reflexivity|]. split; [exact Hg'|]. split; [exact Hr'|].
    intros c2 K2 kc2 R2 Hk2 Hc2 HK2. apply s_st1; [|apply Hx; assumption]. rewrite Hts in Hv. apply (V d (e :: St e :: Ks) c K kc R w Hk Hc HK G2 Hr) in Hv. apply (V d (e :: St e :: Ks) c2 K2 kc2 R2 w Hk2 Hc2 HK2 G2 Hr). exact Hv.
  - destruct (goes_st _ _ _ Hg) as (G1 & G2 & G3). exists d, w. split; [exact Hts|]. split; [exact G3|]. split; [exact Hr|].
    intros c2 K2 kc2 R2 Hk2 Hc2 HK2. apply s_st0. intros Hn. apply Hv. rewrite Hts. apply (V d (e :: St e :: Ks) c K kc R w Hk Hc HK G2 Hr). apply (V d (e :: St e :: Ks) c2 K2 kc2 R2 w Hk2 Hc2 HK2 G2 Hr). exact Hn.
Qed.
(** Changing the positions of the tokens. *)
Fixpoint move (f : token -> token) (t : ptree) : ptree :=
  match t with Leaf k => Leaf (f k) | Node r ch => Node r (map (move f) ch) end.
Lemma sel_move f e K ts x r : (forall t, t_type (f t) = t_type t) -> selects e K ts x r -> selects e K (map f ts) (map (move f) x) (map f r).
Proof.
  intros Hf. assert (T : forall ts, types (map f ts) = types ts) by (intros l; rewrite map_map; apply map_ext; exact Hf).
  induction 1; cbn [map move]; rewrite ?map_app.
  - apply s_tk. rewrite Hf. assumption.
  - apply s_nt. assumption.
  - eapply s_sq; eassumption.
  - apply s_al1; [rewrite T|]; assumption.
  - apply s_al2; [rewrite T|]; assumption.
  - apply s_op1; [rewrite T|]; assumption.
  - apply s_op0. rewrite T. assumption.
  - apply s_pl. assumption.
  - apply s_st1; [rewrite T|]; assumption.
  - apply s_st0. rewrite T. assumption.
Qed.
