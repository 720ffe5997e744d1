(** Operator levels: which tree prediction selects. *)
From Verif Require Import Base LexRules Lexer Grammar Antlr GramSpec GramFacts SimFacts LevelFacts SelFacts.
Local Open Scope Z_scope.

Notation eb := (NT expression_basic). Notation eg := (NT expression_group). Notation eo := (NT expression_or).
Notation ea := (NT expression_and). Notation en := (NT expression_not).
Notation O4 := (Al eb (Al eg (Al ea en))).
Notation A3 := (Al eb (Al eg en)).
Notation A4 := (Al eb (Al eg (Al eo en))).
Notation N5 := (Al eb (Al eg (Al en (Al eo ea)))).
Notation E5 := (Al eb (Al eg (Al eo (Al ea en)))).
Notation andl := (Sq (Tk [AND]) A4).
Notation orl := (Sq (Tk [OR]) O4).

(** ** Words of a level *)
Definition atom (ts : list token) : Prop := viable [eb] (types ts) \/ viable [eg] (types ts).
Inductive wfactor : nat -> list token -> Prop :=
| wf_atom ts : atom ts -> wfactor 0 ts
| wf_not j k ts : t_type k = NOT -> wfactor j ts -> wfactor (S j) (k :: ts).
Inductive wterm : list nat -> list token -> Prop :=
| wt_one j f : wfactor j f -> wterm [j] f
| wt_more j f k js ts : wfactor j f -> t_type k = AND -> wterm js ts -> wterm (j :: js) (f ++ k :: ts).
Inductive wlevel : list (list nat) -> list token -> Prop :=
| wl_one js f : wterm js f -> wlevel [js] f
| wl_more js f k jss ts : wterm js f -> t_type k = OR -> wlevel jss ts -> wlevel (js :: jss) (f ++ k :: ts).

Lemma flat_eb : flat eb. Proof. reflexivity. Qed.
Lemma atom_props ts : atom ts -> balanced (types ts) /\ ops (types ts) = [].
Proof.
  intros [H|H]; (split; [eapply viable_balanced; [exact H|repeat constructor]|eapply viable_nob; [exact H|reflexivity..]]).
Qed.
Lemma wfactor_props j ts : wfactor j ts -> balanced (types ts) /\ ops (types ts) = [].
Proof.
  induction 1 as [ts H|j k ts Hk _ [IH1 IH2]]; [apply atom_props; exact H|]. cbn [map]. rewrite Hk. split; [exact IH1|exact IH2].
Qed.
Lemma wterm_len js ts : wterm js ts -> (1 <= length js)%nat.
Proof. destruct 1; cbn; lia. Qed.
Lemma balanced_cons_op t w : is_op t = true -> balanced w -> balanced (t :: w).
Proof. intros Ht H. destruct t; try discriminate Ht; exact H. Qed.
Lemma wterm_props js ts : wterm js ts -> balanced (types ts) /\ ops (types ts) = repeat AND (pred (length js)).
Proof.
  induction 1 as [j f H|j f k js ts Hf Hk Ht [IH1 IH2]]; [apply wfactor_props in H; exact H|].
  apply wfactor_props in Hf. destruct Hf as [F1 F2]. rewrite map_app. cbn [map]. rewrite Hk. split.
  - apply balanced_app; [exact F1|]. apply balanced_cons_op; [reflexivity|exact IH1].
  - rewrite ops_app, F2, ops_op, IH2 by (exact F1 || reflexivity). pose proof (wterm_len _ _ Ht). destruct js; [cbn in *; lia|reflexivity].
Qed.
Fixpoint lops (jss : list (list nat)) : list ttype :=
  match jss with
  | [] => []
  | js :: rest => repeat AND (pred (length js)) ++ match rest with [] => [] | _ => OR :: lops rest end
  end.
Lemma cnt_or_ands n : cnt OR (repeat AND n) = 0%nat.
Proof. induction n; [reflexivity|exact IHn]. Qed.
Lemma wlevel_ne jss ts : wlevel jss ts -> jss <> [].
Proof. destruct 1; discriminate. Qed.
Lemma wlevel_props jss ts : wlevel jss ts -> balanced (types ts) /\ ops (types ts) = lops jss.
Proof.
  induction 1 as [j f H|js f k jss ts Hf Hk Ht [IH1 IH2]]; [apply wterm_props in H; cbn; rewrite app_nil_r; exact H|].
  apply wterm_props in Hf. destruct Hf as [F1 F2]. rewrite map_app. cbn [map]. rewrite Hk. split.
  - apply balanced_app; [exact F1|]. apply balanced_cons_op; [reflexivity|exact IH1].
  - rewrite ops_app, F2, ops_op, IH2 by (exact F1 || reflexivity). pose proof (wlevel_ne _ _ Ht). destruct jss; [contradiction|reflexivity].
Qed.

(** ** What they are derived from *)
Lemma valt a b w : viable [Al a b] w <-> viable [a] w \/ viable [b] w.
Proof. apply viable_al. Qed.
Lemma vsq a b w : viable [Sq a b] w <-> viable [a; b] w.
Proof. apply viable_sq. Qed.
Lemma vsq_open a b K w : viable (Sq a b :: K) w -> viable (a :: b :: K) w.
Proof. apply viable_sq. Qed.
Lemma vnt r w : viable [NT r] w <-> viable [body r] w.
Proof. apply viable_nt. Qed.
Lemma vst0 e : viable [St e] [].
Proof. apply viable_st. right. apply viable_nil. Qed.
Lemma vst1 e a b : viable [e] a -> viable [St e] b -> viable [St e] (a ++ b).
Proof. intros Ha Hb. apply viable_st. left. apply viable_cons; assumption. Qed.
Lemma vpl e a b : viable [e] a -> viable [St e] b -> viable [Pl e] (a ++ b).
Proof. intros Ha Hb. apply viable_pl. apply viable_cons; assumption. Qed.
Lemma vsqt t e w : viable [e] w -> viable [Sq (Tk [t]) e] (t :: w).
Proof. intros H. apply vsq. apply viable_tk; [left; reflexivity|exact H]. Qed.

Lemma lang_atom b ts : atom ts -> viable [Al eb (Al eg b)] (types ts).
Proof. intros [H|H]; apply valt; auto; right; apply valt; auto. Qed.
Lemma lang_factor j f : wfactor j f -> atom f /\ j = 0%nat \/ viable [en] (types f) /\ (0 < j)%nat.
Proof.
  induction 1 as [ts H|j k ts Hk _ IH]; [auto|]. right. split; [|lia]. apply vnt. cbn [body map]. rewrite Hk. apply vsqt.
  destruct IH as [[H _]|[H _]]; [apply lang_atom; exact H|]. do 2 (apply valt; right). apply valt. left. exact H.
Qed.
Lemma lang_A3 j f : wfactor j f -> viable [A3] (types f).
Proof. intros H. destruct (lang_factor _ _ H) as [[Ha _]|[Hn _]]; [apply lang_atom; exact Ha|]. do 2 (apply valt; right). exact Hn. Qed.
Lemma lang_A4 j f : wfactor j f -> viable [A4] (types f).
Proof. intros H. destruct (lang_factor _ _ H) as [[Ha _]|[Hn _]]; [apply lang_atom; exact Ha|]. do 3 (apply valt; right). exact Hn. Qed.
Lemma lang_and_rest js ts : wterm js ts -> viable [St andl] (AND :: types ts).
Proof.
  induction 1 as [j f H|j f k js ts Hf Hk Ht IH].
  - rewrite <- (app_nil_r (AND :: types f)). apply vst1; [|apply vst0]. apply vsqt. eapply lang_A4; exact H.
  - rewrite map_app. cbn [map]. rewrite Hk. change (AND :: types f ++ AND :: types ts) with ((AND :: types f) ++ AND :: types ts).
    apply vst1; [|exact IH]. apply vsqt. eapply lang_A4; exact Hf.
Qed.
Lemma st_pl e w : viable [St e] w -> w <> [] -> viable [Pl e] w.
Proof. intros H Hne. apply viable_pl. apply viable_st in H. destruct H as [H|H]; [exact H|]. apply viable_nil_inv in H. contradiction. Qed.
Lemma lang_and js ts : wterm js ts -> (2 <= length js)%nat -> viable [ea] (types ts).
Proof.
  destruct 1 as [j f H|j f k js ts Hf Hk Ht]; intros Hlen; [cbn in Hlen; lia|]. apply vnt. cbn [body]. apply vsq. rewrite map_app. cbn [map]. rewrite Hk.
  apply viable_cons; [eapply lang_A3; exact Hf|]. apply st_pl; [|discriminate]. eapply lang_and_rest; exact Ht.
Qed.
Lemma lang_O4 js ts : wterm js ts -> viable [O4] (types ts).
Proof.
  intros H. destruct (le_lt_dec 2 (length js)) as [Hl|Hl]; [do 2 (apply valt; right); apply valt; left; eapply lang_and; eassumption|].
  destruct H as [j f H|j f k js ts Hf Hk Ht]; [|pose proof (wterm_len _ _ Ht); cbn in Hl; lia].
  destruct (lang_factor _ _ H) as [[Ha _]|[Hn _]]; [apply lang_atom; exact Ha|]. do 3 (apply valt; right). exact Hn.
Qed.
Lemma lang_or_rest jss ts : wlevel jss ts -> viable [St orl] (OR :: types ts).
Proof.
  induction 1 as [j f H|j f k js ts Hf Hk Ht IH].
  - rewrite <- (app_nil_r (OR :: types f)). apply vst1; [|apply vst0]. apply vsqt. eapply lang_O4; exact H.
  - rewrite map_app. cbn [map]. rewrite Hk. change (OR :: types f ++ OR :: types ts) with ((OR :: types f) ++ OR :: types ts).
    apply vst1; [|exact IH]. apply vsqt. eapply lang_O4; exact Hf.
Qed.
Lemma lang_or jss ts : wlevel jss ts -> (2 <= length jss)%nat -> viable [eo] (types ts).
Proof.
  destruct 1 as [j f H|j f k js ts Hf Hk Ht]; intros Hlen; [cbn in Hlen; lia|]. apply vnt. cbn [body]. apply vsq. rewrite map_app. cbn [map]. rewrite Hk.
  apply viable_cons; [eapply lang_O4; exact Hf|]. apply st_pl; [|discriminate]. eapply lang_or_rest; exact Ht.
Qed.
Lemma lang_N5 jss ts : wlevel jss ts -> viable [N5] (types ts).
Proof.
  intros H. destruct (le_lt_dec 2 (length jss)) as [Hl|Hl]; [do 3 (apply valt; right); apply valt; left; eapply lang_or; eassumption|].
  destruct H as [j f H|j f k js ts Hf Hk Ht]; [|destruct js; [pose proof (wlevel_ne _ _ Ht); contradiction|cbn in Hl; lia]].
  pose proof (lang_O4 _ _ H) as Ho. apply valt in Ho. apply valt. destruct Ho as [Ho|Ho]; [auto|right]. apply valt in Ho. apply valt. destruct Ho as [Ho|Ho]; [auto|right].
  apply valt in Ho. apply valt. destruct Ho as [Ho|Ho]; [|auto]. right. apply valt. auto.
Qed.
(** A leading negation can swallow the rest of the level. *)
Lemma lang_swallow j js jss ts : wlevel ((S j :: js) :: jss) ts -> viable [en] (types ts).
Proof.
  intros H. assert (Ht : exists k ts', ts = k :: ts' /\ t_type k = NOT /\ wlevel ((j :: js) :: jss) ts').
  { assert (Hf : forall f, wfactor (S j) f -> exists k f', f = k :: f' /\ t_type k = NOT /\ wfactor j f') by (intros f Hf; inversion Hf; subst; eauto).
    assert (Htm : forall f, wterm (S j :: js) f -> exists k f', f = k :: f' /\ t_type k = NOT /\ wterm (j :: js) f').
    { intros f Hx. inversion Hx as [? ? Hy|? g k js' ts' Hy Hk Ht']; subst; destruct (Hf _ Hy) as (k0 & f' & -> & Hk0 & Hf'); eexists _, _; (split; [reflexivity|]); (split; [exact Hk0|]).
      - constructor. exact Hf'.
      - apply (wt_more j f' k js ts'); assumption. }
    inversion H as [? ? Hy|? g k jss' ts' Hy Hk Ht']; subst; destruct (Htm _ Hy) as (k0 & f' & -> & Hk0 & Hf'); eexists _, _; (split; [reflexivity|]); (split; [exact Hk0|]).
    - constructor. exact Hf'.
    - apply (wl_more (j :: js) f' k jss ts'); assumption. }
  destruct Ht as (k & ts' & -> & Hk & Hl). apply vnt. cbn [body map]. rewrite Hk. apply vsqt. eapply lang_N5. exact Hl.
Qed.

(** ** Every derivation is a level word *)
Lemma wl_or a ts : wlevel a ts -> forall b ts' k, t_type k = OR -> wlevel b ts' -> wlevel (a ++ b) (ts ++ k :: ts').
Proof.
  induction 1 as [js f H|js f k jss ts Hf Hk Ht IH]; intros b ts' k' Hk' Hb.
  - apply wl_more; assumption.
  - rewrite <- app_assoc. cbn [app]. apply wl_more; auto.
Qed.
Lemma wt_and a ts : wterm a ts -> forall b ts' k, t_type k = AND -> wterm b ts' -> wterm (a ++ b) (ts ++ k :: ts').
Proof.
  induction 1 as [js f H|js f k jss ts Hf Hk Ht IH]; intros b ts' k' Hk' Hb.
  - apply wt_more; assumption.
  - rewrite <- app_assoc. cbn [app]. apply wt_more; auto.
Qed.
Lemma wl_and a ts : wlevel a ts -> forall b ts' k, t_type k = AND -> wlevel b ts' -> exists jss, wlevel jss (ts ++ k :: ts').
Proof.
  induction 1 as [js f H|js f k jss ts Hf Hk Ht IH]; intros b ts' k' Hk' Hb.
  - destruct Hb as [js' f' H'|js' f' k jss ts' Hf' Hk Ht].
    + eexists. apply wl_one. eapply wt_and; eassumption.
    + eexists. change (f ++ k' :: f' ++ k :: ts') with (f ++ (k' :: f') ++ k :: ts'). rewrite app_assoc. apply wl_more; [eapply wt_and; eassumption|exact Hk|exact Ht].
  - destruct (IH _ _ _ Hk' Hb) as (jss' & H'). eexists. rewrite <- app_assoc. cbn [app]. apply wl_more; eassumption.
Qed.
Lemma wl_not jss ts k : wlevel jss ts -> t_type k = NOT -> exists jss', wlevel jss' (k :: ts).
Proof.
  intros H Hk. assert (Hf : forall js f, wterm js f -> exists js', wterm js' (k :: f)).
  { destruct 1 as [j f Hf|j f k' js f' Hf Hk' Ht]; eexists.
    - apply wt_one. apply wf_not; eassumption.
    - change (k :: f ++ k' :: f') with ((k :: f) ++ k' :: f'). apply wt_more; [apply wf_not; eassumption|exact Hk'|exact Ht]. }
  destruct H as [js f H|js f k' jss ts H Hk' Ht]; destruct (Hf _ _ H) as (js' & H'); eexists.
  - apply wl_one. exact H'.
  - change (k :: f ++ k' :: ts) with ((k :: f) ++ k' :: ts). apply wl_more; eassumption.
Qed.
Definition level_rule (r : rule) : bool :=
  match r with expression | expression_or | expression_and | expression_not | expression_basic | expression_group => true | _ => false end.
Definition levelled (t : ptree) : Prop :=
  match t with Leaf _ => True | Node r ch => level_rule r = true -> derives (body r) ch -> exists jss, wlevel jss (leaves t) end.
Lemma levelled_loop sep a y : derives (St (Sq (Tk [sep]) a)) y -> (sep = AND \/ sep = OR) ->
  (forall x, derives a x -> Forall levelled x -> exists jss, wlevel jss (flat_map leaves x)) ->
  Forall levelled y -> forall jss ts, wlevel jss ts -> exists jss', wlevel jss' (ts ++ flat_map leaves y).
Proof.
  intros Hd Hsep Ha. remember (St (Sq (Tk [sep]) a)) as e eqn:He.
  induction Hd as [| | | | | | | |e1|e1 x y Hx _ Hy IH]; try discriminate He; intros HF jss ts Hts; [exists jss; cbn; rewrite app_nil_r; exact Hts|].
  injection He as ->. inversion Hx as [| |? ? x1 x2 H1 H2| | | | | | |]; subst. inversion H1 as [? k Hk| | | | | | | | |]; subst. destruct Hk as [Hk|[]].
  apply Forall_app in HF. destruct HF as [HFx HFy]. inversion HFx as [|? ? _ HFx2]; subst.
  destruct (Ha _ H2 HFx2) as (jss2 & H2').
  assert (exists jss3, wlevel jss3 (ts ++ k :: flat_map leaves x2)) as (jss3 & H3).
  { destruct Hsep; subst; [eapply wl_and|eexists; eapply wl_or]; eauto. }
  destruct (IH eq_refl HFy _ _ H3) as (jss4 & H4). exists jss4. cbn [app flat_map leaves]. rewrite flat_map_app. cbn [app] in *. rewrite <- app_assoc in H4. exact H4.
Qed.
Ltac alts := repeat match goal with H : derives (Al _ _) _ |- _ => inversion H; clear H; subst end.
Lemma levelled_alt r : level_rule r = true -> forall x, derives (NT r) x -> Forall levelled x -> exists jss, wlevel jss (flat_map leaves x).
Proof. intros Hr x Hx HF. inversion Hx; subst. inversion HF; subst. cbn [flat_map]. rewrite app_nil_r. auto. Qed.
Lemma levelled_all t : levelled t.
Proof.
  assert (HO : forall x, derives O4 x -> Forall levelled x -> exists jss, wlevel jss (flat_map leaves x)) by (intros x Hx; alts; eapply levelled_alt; try eassumption; reflexivity).
  assert (HA3 : forall x, derives A3 x -> Forall levelled x -> exists jss, wlevel jss (flat_map leaves x)) by (intros x Hx; alts; eapply levelled_alt; try eassumption; reflexivity).
  assert (HA4 : forall x, derives A4 x -> Forall levelled x -> exists jss, wlevel jss (flat_map leaves x)) by (intros x Hx; alts; eapply levelled_alt; try eassumption; reflexivity).
  assert (HN5 : forall x, derives N5 x -> Forall levelled x -> exists jss, wlevel jss (flat_map leaves x)) by (intros x Hx; alts; eapply levelled_alt; try eassumption; reflexivity).
  assert (HE5 : forall x, derives E5 x -> Forall levelled x -> exists jss, wlevel jss (flat_map leaves x)) by (intros x Hx; alts; eapply levelled_alt; try eassumption; reflexivity).
  induction t as [k|r ch IH] using ptree_ind'; [exact I|]. intros Hr Hd. destruct r; try discriminate Hr; cbn [leaves].
  - apply HE5; [exact Hd|exact IH].
  - cbn [body] in Hd. inversion Hd as [| |? ? x y Hx Hy| | | | | | |]; subst. apply Forall_app in IH. destruct IH as [IH1 IH2].
    destruct (HO _ Hx IH1) as (jss & Hj). rewrite flat_map_app. eapply (levelled_loop OR O4); auto; [|exact Hj].
    inversion Hy; subst. apply d_st1; assumption.
  - cbn [body] in Hd. inversion Hd as [| |? ? x y Hx Hy| | | | | | |]; subst. apply Forall_app in IH. destruct IH as [IH1 IH2].
    destruct (HA3 _ Hx IH1) as (jss & Hj). rewrite flat_map_app. eapply (levelled_loop AND A4); auto; [|exact Hj].
    inversion Hy; subst. apply d_st1; assumption.
  - exists [[0%nat]]. constructor. constructor. constructor. right. apply viable_one. exists [Node expression_group ch]. split; [constructor; exact Hd|]. unfold ttypes. cbn. rewrite app_nil_r. reflexivity.
  - cbn [body] in Hd. inversion Hd as [| |? ? x y Hx Hy| | | | | | |]; subst. inversion Hx as [? k Hk| | | | | | | | |]; subst. destruct Hk as [Hk|[]].
    inversion IH as [|? ? _ IH2]; subst. destruct (HN5 _ Hy IH2) as (jss & Hj). eapply wl_not; [exact Hj|]. auto.
  - exists [[0%nat]]. constructor. constructor. constructor. left. apply viable_one. exists [Node expression_basic ch]. split; [constructor; exact Hd|]. unfold ttypes. cbn. rewrite app_nil_r. reflexivity.
Qed.
Lemma derives_wlevel x : derives E5 x -> exists jss, wlevel jss (flat_map leaves x).
Proof.
  intros Hx. assert (HF : Forall levelled x) by (apply Forall_forall; intros t _; apply levelled_all).
  alts; eapply levelled_alt; try eassumption; reflexivity.
Qed.

(** ** Atoms are determined by where they start *)
Definition follow : list ttype := [AND; OR; R_PAREN; R_SQUARE_BRACKET].
Definition names : list ttype := [IDENTIFIER; WITHIN; SIMPLE_WITHIN_SCOPE; REGEXP_FLAGS].
Lemma eb_words w : viable [eb] w -> exists a o tl, w = a ++ o :: REGEXP :: tl /\
  (exists n, In n names /\ (a = [n] \/ exists n', a = [n; COLON; n'] /\ In n' names)) /\ In o [OPERATOR_EQ; OPERATOR_NE] /\ (tl = [] \/ tl = [FWD_SLASH; REGEXP_FLAGS]).
Proof.
  intros H. apply vnt in H. cbn [body] in H. apply viable_sq, viable_cons_inv in H. destruct H as (wa & w1 & -> & Ha & H).
  apply viable_sq, viable_tk_inv in H. destruct H as (o & w2 & -> & Ho & H).
  exists wa, o. apply vnt in Ha. cbn [body] in Ha. apply viable_sq, viable_op in Ha.
  assert (Hn : exists n, In n names /\ (wa = [n] \/ exists n', wa = [n; COLON; n'] /\ In n' names)).
  { destruct Ha as [Ha|Ha].
    - apply viable_sq, viable_nt in Ha. cbn [body] in Ha. apply viable_tk_inv in Ha. destruct Ha as (n & wb & -> & Hn & Ha).
      apply viable_tk_inv in Ha. destruct Ha as (c & wc & -> & [<-|[]] & Ha). apply viable_nt in Ha. cbn [body] in Ha.
      apply viable_tk_inv in Ha. destruct Ha as (n' & wd & -> & Hn' & Ha). apply viable_nil_inv in Ha. subst. exists n. split; [exact Hn|]. right. exists n'. auto.
    - apply viable_nt in Ha. cbn [body] in Ha. apply viable_tk_inv in Ha. destruct Ha as (n' & wd & -> & Hn' & Ha). apply viable_nil_inv in Ha. subst. exists n'. auto. }
  apply vnt in H. cbn [body] in H. apply viable_sq, viable_nt in H. cbn [body] in H. apply viable_tk_inv in H. destruct H as (r & w3 & -> & [<-|[]] & H).
  exists w3. split; [reflexivity|]. split; [exact Hn|]. split; [exact Ho|]. apply viable_op in H. destruct H as [H|H].
  - apply viable_sq, viable_tk_inv in H. destruct H as (s & w4 & -> & [<-|[]] & H). apply viable_nt in H. cbn [body] in H.
    apply viable_tk_inv in H. destruct H as (f & w5 & -> & [<-|[]] & H). apply viable_nil_inv in H. subst. auto.
  - apply viable_nil_inv in H. auto.
Qed.
Lemma eb_prefix w1 s1 t1 w2 s2 t2 : viable [eb] w1 -> viable [eb] w2 -> In t1 follow -> In t2 follow ->
  w1 ++ t1 :: s1 = w2 ++ t2 :: s2 -> w1 = w2 /\ t1 :: s1 = t2 :: s2.
Proof.
  intros H1 H2 F1 F2 Heq. assert (w1 = w2) as <-; [|split; [reflexivity|apply app_inv_head in Heq; exact Heq]].
  apply eb_words in H1. apply eb_words in H2. destruct H1 as (a & o & tl & -> & (n & Hn & Ha) & Ho & Htl). destruct H2 as (a' & o' & tl' & -> & (n' & Hn' & Ha') & Ho' & Htl').
  assert (Hoc : ~ In COLON [OPERATOR_EQ; OPERATOR_NE]) by (cbn; intuition discriminate).
  assert (Hff : ~ In FWD_SLASH follow) by (cbn; intuition discriminate).
  destruct Ha as [->|(m & -> & Hm)]; destruct Ha' as [->|(m' & -> & Hm')]; cbn in Heq.
  - injection Heq as -> -> Heq. destruct Htl as [->| ->], Htl' as [->| ->]; cbn in Heq; try reflexivity; injection Heq as Hz _; (rewrite Hz in F1 || rewrite <- Hz in F2); contradiction.
  - injection Heq as -> -> Heq. contradiction.
  - injection Heq as -> <- Heq. contradiction.
  - injection Heq as -> -> -> Heq. destruct Htl as [->| ->], Htl' as [->| ->]; cbn in Heq; try reflexivity; injection Heq as Hz _; (rewrite Hz in F1 || rewrite <- Hz in F2); contradiction.
Qed.
Lemma eg_words w : viable [eg] w -> exists m, w = L_PAREN :: m ++ [R_PAREN] /\ balanced m.
Proof.
  intros H. apply vnt in H. cbn [body] in H. apply viable_sq, viable_tk_inv in H. destruct H as (l & w1 & -> & [<-|[]] & H).
  apply viable_sq, viable_cons_inv in H. destruct H as (m & w2 & -> & Hm & H). apply viable_tk_inv in H. destruct H as (r & w3 & -> & [<-|[]] & H).
  apply viable_nil_inv in H. subst. exists m. split; [reflexivity|]. eapply viable_balanced; [exact Hm|repeat constructor].
Qed.
Lemma eg_prefix w1 s1 w2 s2 : viable [eg] w1 -> viable [eg] w2 -> w1 ++ s1 = w2 ++ s2 -> w1 = w2 /\ s1 = s2.
Proof.
  intros H1 H2 Heq. apply eg_words in H1. apply eg_words in H2. destruct H1 as (m & -> & Hm). destruct H2 as (m' & -> & Hm').
  cbn in Heq. injection Heq as Heq. rewrite <- !app_assoc in Heq. cbn in Heq.
  destruct (balanced_unique _ _ R_PAREN R_PAREN _ _ Hm Hm' eq_refl eq_refl Heq) as (-> & _ & ->). auto.
Qed.
Lemma eb_first K t w : viable (eb :: K) (t :: w) -> In t names.
Proof.
  intros H. apply viable_cons_inv in H. destruct H as (w1 & w2 & Heq & H & _). apply eb_words in H. destruct H as (a & o & tl & -> & (n & Hn & Ha) & _).
  destruct Ha as [->|(m & -> & Hm)]; injection Heq as -> _; exact Hn.
Qed.
Lemma eg_first K t w : viable (eg :: K) (t :: w) -> t = L_PAREN.
Proof.
  intros H. apply viable_cons_inv in H. destruct H as (w1 & w2 & Heq & H & _). apply eg_words in H. destruct H as (m & -> & _). injection Heq as -> _. reflexivity.
Qed.
Lemma en_first K t w : viable (en :: K) (t :: w) -> t = NOT.
Proof. intros H. apply viable_nt in H. cbn [body] in H. apply viable_sq, viable_tk_inv in H. destruct H as (? & ? & Heq & [<-|[]] & _). congruence. Qed.

(** ** The textbook trees *)
Inductive factor_t : nat -> ptree -> Prop :=
| ft_basic ch : factor_t 0 (Node expression_basic ch)
| ft_group ch : factor_t 0 (Node expression_group ch)
| ft_not j k t : factor_t j t -> factor_t (S j) (Node expression_not [Leaf k; t]).
Inductive factors_t : list nat -> list ptree -> Prop :=
| fs_nil : factors_t [] []
| fs_cons j js k t l : factor_t j t -> factors_t js l -> factors_t (j :: js) (Leaf k :: t :: l).
Inductive term_t : list nat -> ptree -> Prop :=
| tt_one j t : factor_t j t -> term_t [j] t
| tt_and j js t l : factor_t j t -> factors_t js l -> js <> [] -> term_t (j :: js) (Node expression_and (t :: l)).
Inductive terms_t : list (list nat) -> list ptree -> Prop :=
| ts_nil : terms_t [] []
| ts_cons js jss k t l : term_t js t -> terms_t jss l -> terms_t (js :: jss) (Leaf k :: t :: l).
Inductive level_t : list (list nat) -> ptree -> Prop :=
| lt_one js t : term_t js t -> level_t [js] t
| lt_or js jss t l : term_t js t -> terms_t jss l -> jss <> [] -> level_t (js :: jss) (Node expression_or (t :: l)).

(** When the textbook tree is the selected one. *)
Fixpoint safe_rest (jss : list (list nat)) : Prop :=
  match jss with
  | [] => True
  | js :: rest =>
      (rest <> [] -> Forall (eq 0%nat) (tl js)) /\
      (forall j, js = [S j] -> Forall (fun js' => length js' = 1%nat) rest) /\ safe_rest rest
  end.
Definition safe_level (jss : list (list nat)) : Prop :=
  match jss with
  | [] | [_] => True
  | js :: rest =>
      ((2 <= length rest)%nat -> Forall (eq 0%nat) (tl js)) /\
      (forall j, js = [S j] -> Forall (fun js' => length js' = 1%nat) (removelast rest)) /\ safe_rest rest
  end.

(** ** Selection *)
Definition loop_of (e : ebnf) : Prop := e = St andl \/ e = Pl andl \/ e = St orl \/ e = Pl orl.
Definition ctx (Ks : list ebnf) : Prop := Forall loop_of Ks.
Lemma ctx_flats Ks : ctx Ks -> flats Ks.
Proof. induction 1 as [|e Ks He _ IH]; constructor; [|exact IH]. destruct He as [->|[->|[->| ->]]]; reflexivity. Qed.
Lemma ctx_ok Ks : ctx Ks -> stack_ok Ks = true.
Proof. induction 1 as [|e Ks He _ IH]; [reflexivity|]. cbn [stack_ok forallb]. apply andb_true_iff. split; [|exact IH]. destruct He as [->|[->|[->| ->]]]; reflexivity. Qed.
Lemma stack_ok_app a b : stack_ok (a ++ b) = (stack_ok a && stack_ok b)%bool.
Proof. apply forallb_app. Qed.
Lemma types_inj (a b : list token) (r s : list token) : types a = types b -> a ++ r = b ++ s -> a = b /\ r = s.
Proof.
  intros Ht Heq. assert (Hl : length a = length b) by (rewrite <- (map_length t_type a), <- (map_length t_type b), Ht; reflexivity).
  revert b Hl Heq Ht. induction a as [|x a IH]; intros [|y b] Hl Heq Ht; try discriminate; [auto|]. cbn in *. injection Heq as -> Heq. injection Ht as Ht.
  destruct (IH b ltac:(lia) Heq Ht) as [-> ->]. auto.
Qed.
(** What follows a term: nothing, or [|]. *)
Definition orb_ (b : list token) : Prop := forall t w, b = t :: w -> t_type t = OR.

Section Sel.
  Variables (c : ttype) (K : list ebnf) (kc : token) (R : list token).
  Hypothesis Hc : c = R_PAREN \/ c = R_SQUARE_BRACKET.
  Hypothesis Hkc : t_type kc = c.
  Hypothesis HKv : viable K (types R).
  Hypothesis HKo : stack_ok K = true.
  Notation TK := (Tk [c] :: K).

  Lemma c_closes : closes c = true.
  Proof. destruct Hc as [-> | ->]; reflexivity. Qed.
  Lemma c_follow : In c follow.
  Proof. destruct Hc as [-> | ->]; cbn; tauto. Qed.
  Lemma ctx_follow Ks t w : ctx Ks -> viable (Ks ++ TK) (t :: w) -> In t follow.
  Proof.
    induction 1 as [|e Ks He _ IH]; cbn [app]; intros H.
    - apply viable_tk_inv in H. destruct H as (? & ? & Heq & [<-|[]] & _). injection Heq as -> _. exact c_follow.
    - destruct He as [->|[->|[->| ->]]].
      + apply viable_st in H. destruct H as [H|H]; [|auto]. apply viable_sq, viable_tk_inv in H. destruct H as (? & ? & Heq & [<-|[]] & _). injection Heq as -> _. cbn; tauto.
      + apply viable_pl, viable_sq, viable_tk_inv in H. destruct H as (? & ? & Heq & [<-|[]] & _). injection Heq as -> _. cbn; tauto.
      + apply viable_st in H. destruct H as [H|H]; [|auto]. apply viable_sq, viable_tk_inv in H. destruct H as (? & ? & Heq & [<-|[]] & _). injection Heq as -> _. cbn; tauto.
      + apply viable_pl, viable_sq, viable_tk_inv in H. destruct H as (? & ? & Heq & [<-|[]] & _). injection Heq as -> _. cbn; tauto.
  Qed.
  Lemma viable_ne Ks w : viable (Ks ++ TK) w -> w <> [].
  Proof.
    intros H. apply viable_split in H. destruct H as (w1 & w2 & -> & _ & H). apply viable_tk_inv in H. destruct H as (t & w' & -> & _).
    destruct w1; discriminate.
  Qed.
  Lemma lv Ks b : flats Ks -> balanced (types b) -> viable (Ks ++ TK) (types (b ++ kc :: R)) <-> viable Ks (types b).
  Proof.
    intros Hf Hb. rewrite map_app. cbn [map]. rewrite Hkc. rewrite (level_viable _ _ _ _ _ Hf Hb c_closes). tauto.
  Qed.
  Lemma lv1 Ks b : viable (Ks ++ TK) (types (b ++ kc :: R)) -> flats Ks -> balanced (types b) -> viable Ks (types b).
  Proof. intros H Hf Hb. apply lv; assumption. Qed.
  Lemma lvc Ks b : ctx Ks -> viable Ks (types b) -> viable (Ks ++ TK) (types (b ++ kc :: R)).
  Proof. intros Hx Hv. apply lv; [apply ctx_flats; exact Hx|eapply viable_balanced; [exact Hv|apply ctx_flats; exact Hx]|exact Hv]. Qed.
  Lemma ok_ctx Ks : ctx Ks -> stack_ok (Ks ++ TK) = true.
  Proof. intros H. rewrite stack_ok_app, (ctx_ok _ H). exact HKo. Qed.

  Lemma atom_sel Ks a alt b : ctx Ks -> atom a -> viable Ks (types b) ->
    exists t, factor_t 0 t /\ leaves t = a /\ selects (Al eb (Al eg alt)) (Ks ++ TK) (a ++ b ++ kc :: R) [t] (b ++ kc :: R).
  Proof.
    intros Hx Ha Hv. pose proof (lvc Ks b Hx Hv) as HV. pose proof (ok_ctx Ks Hx) as Hok. destruct Ha as [Ha|Ha].
    - assert (Hve : viable (eb :: Ks ++ TK) (types (a ++ b ++ kc :: R))) by (rewrite map_app; apply viable_cons; assumption).
      destruct (selects_exists eb (Ks ++ TK) _ Hok Hve) as (x & r & Hs & Hr). destruct (selects_derives _ _ _ _ _ Hs) as [Hd Heq].
      assert (Hx' : viable [eb] (types (flat_map leaves x))) by (apply viable_one; exists x; auto).
      assert (Ht : types a = types (flat_map leaves x)).
      { pose proof (viable_ne _ _ HV) as N1. pose proof (viable_ne _ _ Hr) as N2.
        pose proof (f_equal types Heq) as Heq'. rewrite !(map_app t_type) in Heq'. rewrite <- (map_app t_type b) in Heq'.
        destruct (types (b ++ kc :: R)) as [|t1 s1]; [congruence|]. destruct (types r) as [|t2 s2]; [congruence|].
        refine (proj1 (eb_prefix _ _ _ _ _ _ Ha Hx' _ _ Heq')); [exact (ctx_follow Ks _ _ Hx HV)|exact (ctx_follow Ks _ _ Hx Hr)]. }
      destruct (types_inj _ _ _ _ Ht Heq) as [Ha' <-]. inversion Hd; subst. eexists. split; [apply ft_basic|]. split; [|apply s_al1; [exact Hve|exact Hs]].
      cbn. rewrite app_nil_r. reflexivity.
    - assert (Hve : viable (eg :: Ks ++ TK) (types (a ++ b ++ kc :: R))) by (rewrite map_app; apply viable_cons; assumption).
      destruct (selects_exists eg (Ks ++ TK) _ Hok Hve) as (x & r & Hs & Hr). destruct (selects_derives _ _ _ _ _ Hs) as [Hd Heq].
      assert (Hx' : viable [eg] (types (flat_map leaves x))) by (apply viable_one; exists x; auto).
      assert (Ht : types a = types (flat_map leaves x)).
      { pose proof (f_equal types Heq) as Heq'. rewrite !(map_app t_type) in Heq'. rewrite <- (map_app t_type b) in Heq'.
        exact (proj1 (eg_prefix _ _ _ _ Ha Hx' Heq')). }
      destruct (types_inj _ _ _ _ Ht Heq) as [Ha' <-]. inversion Hd; subst. eexists. split; [apply ft_group|]. split; [|apply s_al2; [|apply s_al1; [exact Hve|exact Hs]]].
      + cbn. rewrite app_nil_r. reflexivity.
      + apply eg_words in Ha. destruct Ha as (m & Ha & _). rewrite map_app, Ha. cbn [app]. intros Hn. apply eb_first in Hn. cbn in Hn. intuition discriminate.
  Qed.

  Lemma not_first f k w : t_type k = NOT -> f = k :: w -> forall Ks r, ~ viable (eb :: Ks) (types (f ++ r)) /\ ~ viable (eg :: Ks) (types (f ++ r)).
  Proof.
    intros Hk -> Ks r. cbn [app map]. rewrite Hk. split; intros H; [apply eb_first in H|apply eg_first in H]; cbn in H; intuition discriminate.
  Qed.
  Lemma not_sel Ks j f b : ctx Ks -> wfactor (S j) f -> viable Ks (types b) ->
    exists t, factor_t (S j) t /\ leaves t = f /\ selects en (Ks ++ TK) (f ++ b ++ kc :: R) [t] (b ++ kc :: R).
  Proof.
    intros Hx Hf Hv. pose proof (lvc Ks b Hx Hv) as HV. remember (S j) as j1 eqn:Hj. revert j Hj.
    induction Hf as [ts Ha|j k ts Hk Hf IH]; intros j1 Hj; [discriminate|]. injection Hj as <-.
    assert (Hsel : exists t, factor_t j t /\ leaves t = ts /\ selects N5 (Ks ++ TK) (ts ++ b ++ kc :: R) [t] (b ++ kc :: R)).
    { destruct Hf as [ts Ha|j k' ts Hk' Hf]; [apply atom_sel; assumption|]. destruct (IH j eq_refl) as (t & Ht & Hl & Hs). exists t. split; [exact Ht|]. split; [exact Hl|].
      destruct (not_first (k' :: ts) k' ts Hk' eq_refl (Ks ++ TK) (b ++ kc :: R)) as [N1 N2].
      apply s_al2; [exact N1|]. apply s_al2; [exact N2|]. apply s_al1; [|exact Hs]. eapply selects_viable; [exact Hs|exact HV]. }
    destruct Hsel as (t & Ht & Hl & Hs). exists (Node expression_not [Leaf k; t]). split; [constructor; exact Ht|]. split; [cbn; rewrite app_nil_r, Hl; reflexivity|].
    apply s_nt. cbn [body]. change [Leaf k; t] with ([Leaf k] ++ [t]). cbn [app]. eapply (s_sq _ _ _ _ [Leaf k]); [|exact Hs]. apply s_tk. rewrite Hk. left. reflexivity.
  Qed.

  (** Operands of [&]. *)
  Lemma A3_sel Ks j f b : ctx Ks -> wfactor j f -> viable Ks (types b) ->
    exists t, factor_t j t /\ leaves t = f /\ selects A3 (Ks ++ TK) (f ++ b ++ kc :: R) [t] (b ++ kc :: R).
  Proof.
    intros Hx Hf Hv. destruct Hf as [ts Ha|j k ts Hk Hf]; [apply atom_sel; assumption|].
    destruct (not_sel Ks j (k :: ts) b Hx) as (t & Ht & Hl & Hs); [constructor; assumption|exact Hv|]. exists t. split; [exact Ht|]. split; [exact Hl|].
    destruct (not_first (k :: ts) k ts Hk eq_refl (Ks ++ TK) (b ++ kc :: R)) as [N1 N2]. apply s_al2; [exact N1|]. apply s_al2; [exact N2|exact Hs].
  Qed.
  Lemma A4_sel Ks j f b : ctx Ks -> wfactor j f -> viable Ks (types b) -> (j = 0 \/ cnt OR (ops (types b)) <= lobs OR Ks)%nat ->
    exists t, factor_t j t /\ leaves t = f /\ selects A4 (Ks ++ TK) (f ++ b ++ kc :: R) [t] (b ++ kc :: R).
  Proof.
    intros Hx Hf Hv Hcond. pose proof (wfactor_props _ _ Hf) as [Fb Fo]. destruct Hf as [ts Ha|j k ts Hk Hf]; [apply atom_sel; assumption|].
    destruct Hcond as [Hcond|Hcond]; [discriminate|].
    destruct (not_sel Ks j (k :: ts) b Hx) as (t & Ht & Hl & Hs); [constructor; assumption|exact Hv|]. exists t. split; [exact Ht|]. split; [exact Hl|].
    destruct (not_first (k :: ts) k ts Hk eq_refl (Ks ++ TK) (b ++ kc :: R)) as [N1 N2]. apply s_al2; [exact N1|]. apply s_al2; [exact N2|]. apply s_al2; [|exact Hs].
    intros Hno. pose proof (ctx_flats _ Hx) as Hfl. pose proof (viable_balanced _ _ Hv Hfl) as Hb.
    rewrite app_assoc in Hno. change (eo :: Ks ++ TK) with ((eo :: Ks) ++ TK) in Hno.
    assert (Hfl' : flats (eo :: Ks)) by (constructor; [reflexivity|exact Hfl]).
    apply lv1 in Hno; [|exact Hfl'|rewrite map_app; apply balanced_app; assumption].
    pose proof (viable_lobs OR (eo :: Ks) eq_refl Hfl' _ Hno) as Hlob. rewrite map_app, ops_app, cnt_app, Fo in Hlob by exact Fb. cbn in Hlob. fold (lobs OR Ks) in Hlob. lia.
  Qed.
  Lemma exit_loop sep a Ks b : (sep = AND -> orb_ b) -> (sep = OR -> b = []) -> (sep = AND \/ sep = OR) ->
    ~ viable (Sq (Tk [sep]) a :: Ks) (types (b ++ kc :: R)).
  Proof.
    intros H1 H2 Hs H. apply viable_sq, viable_tk_inv in H. destruct H as (t & w & Heq & [<-|[]] & _).
    destruct b as [|x b]; cbn in Heq; injection Heq as Heq _.
    - destruct Hs as [->| ->], Hc as [-> | ->]; congruence.
    - destruct Hs as [->| ->]; [specialize (H1 eq_refl x b eq_refl); congruence|specialize (H2 eq_refl); discriminate].
  Qed.
  Lemma and_rest_sel Ks js ts : ctx Ks -> wterm js ts -> forall b k, t_type k = AND -> viable Ks (types b) -> orb_ b ->
    (Forall (eq 0%nat) js \/ (cnt OR (ops (types b)) <= lobs OR Ks)%nat) ->
    exists l, factors_t js l /\ flat_map leaves l = k :: ts /\ selects (Sq andl (St andl)) (Ks ++ TK) (k :: ts ++ b ++ kc :: R) l (b ++ kc :: R).
  Proof.
    intros Hx Ht. assert (Hx' : ctx (St andl :: Ks)) by (constructor; [left; reflexivity|exact Hx]).
    induction Ht as [j f Hf|j f k' js ts Hf Hk' Ht IH]; intros b k Hk Hv Hb Hcond.
    - assert (Hv' : viable (St andl :: Ks) (types b)) by (apply viable_st; right; exact Hv).
      destruct (A4_sel (St andl :: Ks) j f b Hx' Hf Hv') as (t & Hft & Hl & Hs).
      { destruct Hcond as [Hcond|Hcond]; [left; inversion Hcond; congruence|right; exact Hcond]. }
      exists ([Leaf k; t] ++ []). split; [repeat constructor; exact Hft|]. split; [cbn; rewrite Hl, !app_nil_r; reflexivity|].
      eapply s_sq; [|apply s_st0; apply exit_loop; auto; discriminate]. eapply (s_sq _ _ _ _ [Leaf k]); [apply s_tk; left; congruence|exact Hs].
    - destruct (IH b k' Hk' Hv Hb) as (l & Hfl & Hl & Hs). { destruct Hcond as [Hcond|Hcond]; [left; inversion Hcond; assumption|right; exact Hcond]. }
      pose proof (wterm_props _ _ Ht) as [Tb To].
      assert (Hvr : viable (St andl :: Ks) (types (k' :: ts ++ b))).
      { change (k' :: ts ++ b) with ((k' :: ts) ++ b). rewrite map_app. apply viable_cons; [|exact Hv]. cbn [map]. rewrite Hk'. eapply lang_and_rest; exact Ht. }
      destruct (A4_sel (St andl :: Ks) j f (k' :: ts ++ b) Hx' Hf Hvr) as (t & Hft & Hlt & Hst).
      { destruct Hcond as [Hcond|Hcond]; [left; inversion Hcond; congruence|right]. cbn [map]. rewrite Hk', ops_op, map_app, ops_app, To by (exact Tb || reflexivity).
        change (AND :: repeat AND (Init.Nat.pred (length js)) ++ ops (types b)) with ((AND :: repeat AND (Init.Nat.pred (length js))) ++ ops (types b)).
        rewrite cnt_app. assert (Hz : cnt OR (AND :: repeat AND (Init.Nat.pred (length js))) = 0%nat) by (clear; cbn; induction (Init.Nat.pred (length js)); [reflexivity|exact IHn]).
        rewrite Hz. exact Hcond. }
      exists ([Leaf k; t] ++ l). split; [constructor; assumption|]. split; [cbn; rewrite Hlt, Hl; reflexivity|].
      rewrite <- app_assoc. cbn [app]. cbn [app] in Hst. rewrite <- app_assoc in Hst.
      eapply (s_sq _ _ _ _ [Leaf k; t]); [eapply (s_sq _ _ _ _ [Leaf k]); [apply s_tk; left; congruence|exact Hst]|].
      apply s_st1; [|exact Hs]. apply vsq_open. eapply selects_viable; [exact Hs|]. apply lvc; assumption.
  Qed.
  Lemma and_sel Ks js ts b : ctx Ks -> wterm js ts -> (2 <= length js)%nat -> viable Ks (types b) -> orb_ b ->
    (Forall (eq 0%nat) (tl js) \/ (cnt OR (ops (types b)) <= lobs OR Ks)%nat) ->
    exists t, term_t js t /\ leaves t = ts /\ selects ea (Ks ++ TK) (ts ++ b ++ kc :: R) [t] (b ++ kc :: R).
  Proof.
    intros Hx Ht Hlen Hv Hb Hcond. destruct Ht as [j f Hf|j f k js ts Hf Hk Ht]; [cbn in Hlen; lia|]. cbn [tl] in Hcond.
    destruct (and_rest_sel Ks js ts Hx Ht b k Hk Hv Hb Hcond) as (l & Hfl & Hl & Hs).
    destruct (A3_sel (Pl andl :: Ks) j f (k :: ts ++ b)) as (t & Hft & Hlt & Hst).
    { constructor; [right; left; reflexivity|exact Hx]. } { exact Hf. }
    { change (k :: ts ++ b) with ((k :: ts) ++ b). rewrite map_app. apply viable_cons; [|exact Hv]. cbn [map]. rewrite Hk.
      apply st_pl; [eapply lang_and_rest; exact Ht|discriminate]. }
    exists (Node expression_and ([t] ++ l)). split; [|split].
    - apply tt_and; [exact Hft|exact Hfl|]. destruct js; [pose proof (wterm_len _ _ Ht); cbn in *; lia|discriminate].
    - cbn. rewrite Hlt, Hl. reflexivity.
    - apply s_nt. cbn [body]. rewrite <- app_assoc. cbn [app] in *. rewrite <- app_assoc in Hst.
      eapply (s_sq _ _ _ _ [t]); [exact Hst|]. apply s_pl. exact Hs.
  Qed.

  (** Operands of [|]. *)
  Lemma ops_first e Ks w : viable (e :: Ks) w -> flat e -> nob AND 0 e = true -> nob OR 0 e = true ->
    (Ks = [] \/ Ks = [St orl] \/ Ks = [Pl orl]) -> forall t l, ops w = t :: l -> t = OR.
  Proof.
    intros H Hf Ha Ho HK t l Hop. apply viable_cons_inv in H. destruct H as (w1 & w2 & -> & H1 & H2).
    rewrite ops_app in Hop by (eapply viable_balanced; [exact H1|repeat constructor; exact Hf]). rewrite (viable_nob _ _ H1 Hf Ha Ho) in Hop. cbn [app] in Hop.
    assert (H2' : w2 = [] \/ exists w3, w2 = OR :: w3).
    { destruct HK as [->|[->| ->]].
      - left. apply viable_nil_inv. exact H2.
      - apply viable_st in H2. destruct H2 as [H2|H2]; [right|left; apply viable_nil_inv; exact H2]. apply viable_sq, viable_tk_inv in H2. destruct H2 as (? & ? & -> & [<-|[]] & _). eauto.
      - right. apply viable_pl, viable_sq, viable_tk_inv in H2. destruct H2 as (? & ? & -> & [<-|[]] & _). eauto. }
    destruct H2' as [->|(w3 & ->)]; [discriminate|]. rewrite ops_op in Hop by reflexivity. congruence.
  Qed.
  Definition orctx (Ks : list ebnf) : Prop := Ks = [] \/ Ks = [St orl] \/ Ks = [Pl orl].
  Lemma orctx_ctx Ks : orctx Ks -> ctx Ks.
  Proof. intros [->|[->| ->]]; repeat constructor; unfold loop_of; tauto. Qed.
  Lemma long_no_atom Ks js ts b : orctx Ks -> wterm js ts -> (2 <= length js)%nat -> viable Ks (types b) ->
    ~ viable (eb :: Ks ++ TK) (types (ts ++ b ++ kc :: R)) /\ ~ viable (eg :: Ks ++ TK) (types (ts ++ b ++ kc :: R)).
  Proof.
    intros Hx Ht Hlen Hv. pose proof (ctx_flats _ (orctx_ctx _ Hx)) as Hfl. pose proof (viable_balanced _ _ Hv Hfl) as Hb. pose proof (wterm_props _ _ Ht) as [Tb To].
    assert (Hop : exists l, ops (types (ts ++ b)) = AND :: l).
    { rewrite map_app, ops_app, To by exact Tb. destruct js as [|j [|j' js]]; cbn in Hlen; try lia. cbn. eauto. }
    destruct Hop as (l & Hop). rewrite app_assoc. change (eb :: Ks ++ TK) with ((eb :: Ks) ++ TK). change (eg :: Ks ++ TK) with ((eg :: Ks) ++ TK).
    split; intros H; (apply lv1 in H; [|constructor; [reflexivity|exact Hfl]|rewrite map_app; apply balanced_app; assumption]);
      pose proof (ops_first _ _ _ H eq_refl eq_refl eq_refl Hx _ _ Hop); discriminate.
  Qed.
  Lemma O4_sel Ks js ts b : orctx Ks -> wterm js ts -> viable Ks (types b) -> orb_ b ->
    (Forall (eq 0%nat) (tl js) \/ (cnt OR (ops (types b)) <= lobs OR Ks)%nat) ->
    (forall j, js = [S j] -> ~ viable (ea :: Ks) (types (ts ++ b))) ->
    exists t, term_t js t /\ leaves t = ts /\ selects O4 (Ks ++ TK) (ts ++ b ++ kc :: R) [t] (b ++ kc :: R).
  Proof.
    intros Hx Ht Hv Hb Hcond Hneg. pose proof (orctx_ctx _ Hx) as Hcx. pose proof (ctx_flats _ Hcx) as Hfl. pose proof (viable_balanced _ _ Hv Hfl) as Hbb.
    pose proof (wterm_props _ _ Ht) as [Tb _].
    destruct (le_lt_dec 2 (length js)) as [Hl|Hl].
    - destruct (and_sel Ks js ts b Hcx Ht Hl Hv Hb Hcond) as (t & Htt & Hlv & Hs). exists t. split; [exact Htt|]. split; [exact Hlv|].
      destruct (long_no_atom Ks js ts b Hx Ht Hl Hv) as [N1 N2]. apply s_al2; [exact N1|]. apply s_al2; [exact N2|]. apply s_al1; [|exact Hs].
      eapply selects_viable; [exact Hs|]. apply lvc; assumption.
    - destruct Ht as [j f Hf|j f k js ts Hf Hk Ht]; [|pose proof (wterm_len _ _ Ht); cbn in Hl; lia]. destruct Hf as [ts Ha|j k ts Hk Hf].
      + destruct (atom_sel Ks ts (Al ea en) b Hcx Ha Hv) as (t & Htt & Hlv & Hs). exists t. split; [constructor; exact Htt|]. auto.
      + destruct (not_sel Ks j (k :: ts) b Hcx) as (t & Htt & Hlv & Hs); [constructor; assumption|exact Hv|]. exists t. split; [constructor; exact Htt|]. split; [exact Hlv|].
        destruct (not_first (k :: ts) k ts Hk eq_refl (Ks ++ TK) (b ++ kc :: R)) as [N1 N2]. apply s_al2; [exact N1|]. apply s_al2; [exact N2|]. apply s_al2; [|exact Hs].
        intros H. apply (Hneg j eq_refl). rewrite app_assoc in H. change (ea :: Ks ++ TK) with ((ea :: Ks) ++ TK) in H.
        apply lv1 in H; [exact H|constructor; [reflexivity|exact Hfl]|rewrite map_app; apply balanced_app; assumption].
  Qed.
  Lemma lops_single jss : Forall (fun js => length js = 1%nat) jss -> cnt AND (lops jss) = 0%nat.
  Proof.
    induction 1 as [|js jss Hj _ IH]; [reflexivity|]. cbn [lops]. rewrite Hj. cbn. destruct jss; [reflexivity|]. exact IH.
  Qed.
  Lemma or_rest_sel jss ts : wlevel jss ts -> forall k, t_type k = OR -> safe_rest jss ->
    exists l, terms_t jss l /\ flat_map leaves l = k :: ts /\ selects (Sq orl (St orl)) TK (k :: ts ++ kc :: R) l (kc :: R).
  Proof.
    assert (HX : orctx [St orl]) by (right; left; reflexivity).
    induction 1 as [js f Hf|js f k' jss ts Hf Hk' Ht IH]; intros k Hk Hsafe.
    - destruct (O4_sel [St orl] js f [] HX Hf) as (t & Htt & Hl & Hs); [apply vst0|discriminate|right; cbn; lia| |].
      { intros j -> H. rewrite app_nil_r in H. pose proof (wterm_props _ _ Hf) as [_ To].
        pose proof (viable_lobs AND [ea; St orl] eq_refl ltac:(repeat constructor) _ H) as Hlob. rewrite To in Hlob. cbn in Hlob. lia. }
      exists ([Leaf k; t] ++ []). split; [repeat constructor; exact Htt|]. split; [cbn; rewrite Hl, !app_nil_r; reflexivity|]. cbn [app] in Hs.
      eapply s_sq; [|apply s_st0; apply (exit_loop OR O4 (St orl :: TK) []); auto; discriminate]. eapply (s_sq _ _ _ _ [Leaf k]); [apply s_tk; left; congruence|exact Hs].
    - cbn [safe_rest] in Hsafe. destruct Hsafe as (Ha & Hb & Hsafe). destruct (IH k' Hk' Hsafe) as (l & Hll & Hlv & Hs).
      pose proof (wlevel_props _ _ Ht) as [Lb Lo]. pose proof (wterm_props _ _ Hf) as [Tb To]. pose proof (wlevel_ne _ _ Ht) as Hne.
      assert (Hvr : viable [St orl] (types (k' :: ts))) by (cbn [map]; rewrite Hk'; eapply lang_or_rest; exact Ht).
      destruct (O4_sel [St orl] js f (k' :: ts) HX Hf Hvr) as (t & Htt & Hlt & Hst).
      { intros x w Heq. injection Heq as <- _. exact Hk'. } { left. auto. }
      { intros j -> H. pose proof (viable_lobs AND [ea; St orl] eq_refl ltac:(repeat constructor) _ H) as Hlob.
        rewrite map_app, ops_app, To in Hlob by exact Tb. cbn [map] in Hlob. rewrite Hk', ops_op, Lo in Hlob by reflexivity. cbn [length pred repeat app] in Hlob.
        change (OR :: lops jss) with ([OR] ++ lops jss) in Hlob. rewrite cnt_app, (lops_single jss (Hb j eq_refl)) in Hlob. cbn in Hlob. lia. }
      exists ([Leaf k; t] ++ l). split; [constructor; assumption|]. split; [cbn; rewrite Hlt, Hlv; reflexivity|].
      rewrite <- app_assoc. cbn [app] in *.
      eapply (s_sq _ _ _ _ [Leaf k; t]); [eapply (s_sq _ _ _ _ [Leaf k]); [apply s_tk; left; congruence|exact Hst]|].
      apply s_st1; [|exact Hs]. apply vsq_open. eapply selects_viable; [exact Hs|]. apply (lvc [] []); [constructor|apply viable_nil].
  Qed.
  Lemma lops_sorted jss : jss <> [] -> Forall (fun js => length js = 1%nat) (removelast jss) -> exists p m, lops jss = repeat OR p ++ repeat AND m.
  Proof.
    induction jss as [|js jss IH]; intros Hne H; [contradiction|]. destruct jss as [|js' jss].
    - exists 0%nat, (pred (length js)). cbn. rewrite app_nil_r. reflexivity.
    - change (removelast (js :: js' :: jss)) with (js :: removelast (js' :: jss)) in H. inversion H as [|? ? Hj H']; subst.
      destruct (IH ltac:(discriminate) H') as (p & m & Hp). exists (S p), m. cbn [lops] in *. rewrite Hj. cbn [pred repeat app]. rewrite <- Hp. reflexivity.
  Qed.
  Lemma sorted_split p m : forall a b, repeat OR p ++ repeat AND m = a ++ b -> In AND a -> ~ In OR b.
  Proof.
    induction p as [|p IH]; intros a b Heq Ha Hb; cbn in Heq.
    - assert (H : In OR (repeat AND m)) by (rewrite Heq; apply in_or_app; auto). apply repeat_spec in H. discriminate.
    - destruct a as [|x a]; [destruct Ha|]. injection Heq as <- Heq. destruct Ha as [Ha|Ha]; [discriminate|]. exact (IH _ _ Heq Ha Hb).
  Qed.

  (** The tree of a safe level. *)
  Lemma level_sel jss ts : wlevel jss ts -> safe_level jss ->
    exists t, level_t jss t /\ leaves t = ts /\ selects E5 TK (ts ++ kc :: R) [t] (kc :: R).
  Proof.
    assert (HX : orctx []) by (left; reflexivity). assert (HTK : viable TK (types (kc :: R))) by (apply (lvc [] []); [constructor|apply viable_nil]).
    assert (Hnl : forall e ts, flat e -> balanced (types ts) -> viable (e :: TK) (types (ts ++ kc :: R)) -> viable [e] (types ts)).
    { intros e w He Hb H. change (e :: TK) with ([e] ++ TK) in H. apply lv1 in H; [exact H|repeat constructor; exact He|exact Hb]. }
    intros Hw Hsafe. destruct Hw as [js f Hf|js f k jss ts Hf Hk Ht].
    - pose proof (wterm_props _ _ Hf) as [Tb To].
      assert (Hno : ~ viable (eo :: TK) (types (f ++ kc :: R))).
      { intros H. apply Hnl in H; [|reflexivity|exact Tb]. pose proof (viable_lob OR eo _ eq_refl H eq_refl) as Hlob. rewrite To in Hlob. cbn in Hlob.
        rewrite cnt_or_ands in Hlob. lia. }
      destruct (le_lt_dec 2 (length js)) as [Hl|Hl].
      + destruct (and_sel [] js f [] ltac:(constructor) Hf Hl viable_nil) as (t & Htt & Hlv & Hs); [discriminate|right; cbn; lia|]. cbn [app] in Hs.
        exists t. split; [constructor; exact Htt|]. split; [exact Hlv|]. destruct (long_no_atom [] js f [] HX Hf Hl viable_nil) as [N1 N2]. cbn [app] in N1, N2.
        apply s_al2; [exact N1|]. apply s_al2; [exact N2|]. apply s_al2; [exact Hno|]. apply s_al1; [|exact Hs]. eapply selects_viable; [exact Hs|exact HTK].
      + assert (Hna : ~ viable (ea :: TK) (types (f ++ kc :: R))).
        { intros H. apply Hnl in H; [|reflexivity|exact Tb]. pose proof (viable_lob AND ea _ eq_refl H eq_refl) as Hlob. rewrite To in Hlob. pose proof (wterm_len _ _ Hf).
          replace (length js) with 1%nat in Hlob by lia. cbn in Hlob. lia. }
        destruct Hf as [j f Hf|j f k js ts Hf Hk Ht]; [|pose proof (wterm_len _ _ Ht); cbn in Hl; lia]. destruct Hf as [ts Ha|j k ts Hk Hf].
        * destruct (atom_sel [] ts (Al eo (Al ea en)) [] ltac:(constructor) Ha viable_nil) as (t & Htt & Hlv & Hs). exists t. split; [do 2 constructor; exact Htt|]. auto.
        * destruct (not_sel [] j (k :: ts) [] ltac:(constructor)) as (t & Htt & Hlv & Hs); [constructor; assumption|exact viable_nil|]. exists t. split; [do 2 constructor; exact Htt|]. split; [exact Hlv|].
          destruct (not_first (k :: ts) k ts Hk eq_refl TK (kc :: R)) as [N1 N2]. cbn [app] in Hs.
          apply s_al2; [exact N1|]. apply s_al2; [exact N2|]. apply s_al2; [exact Hno|]. apply s_al2; [exact Hna|exact Hs].
    - pose proof (wlevel_ne _ _ Ht) as Hne. destruct jss as [|js' jss]; [contradiction|]. set (rest := js' :: jss) in *. cbn [safe_level] in Hsafe. fold rest in Hsafe. destruct Hsafe as (Ha & Hb & Hr).
      pose proof (wlevel_props _ _ Ht) as [Lb Lo]. pose proof (wterm_props _ _ Hf) as [Tb To].
      destruct (or_rest_sel _ _ Ht k Hk Hr) as (l & Hll & Hlv & Hs).
      assert (HXp : orctx [Pl orl]) by (right; right; reflexivity).
      assert (Hvr : viable [Pl orl] (types (k :: ts))) by (cbn [map]; rewrite Hk; apply st_pl; [eapply lang_or_rest; exact Ht|discriminate]).
      destruct (O4_sel [Pl orl] js f (k :: ts) HXp Hf Hvr) as (t & Htt & Hlt & Hst).
      { intros x w Heq. injection Heq as <- _. exact Hk. }
      { destruct jss as [|js2 jss]; [right|left; apply Ha; cbn; lia]. cbn [map]. rewrite Hk, ops_op, Lo by reflexivity. cbn [rest lops]. rewrite app_nil_r.
        assert (Hz : cnt OR (repeat AND (pred (length js'))) = 0%nat) by apply cnt_or_ands.
        change (OR :: repeat AND (Init.Nat.pred (length js'))) with ([OR] ++ repeat AND (Init.Nat.pred (length js'))). rewrite cnt_app, Hz. cbn. lia. }
      { intros j -> H. specialize (Hb j eq_refl). apply viable_cons_inv in H. destruct H as (w1 & w2 & Heq & H1 & H2).
        pose proof (viable_balanced _ _ H1 ltac:(repeat constructor)) as B1.
        assert (Hop : ops (types (f ++ k :: ts)) = OR :: lops rest).
        { rewrite map_app, ops_app, To by exact Tb. cbn [map]. rewrite Hk, ops_op, Lo by reflexivity. reflexivity. }
        rewrite Heq, ops_app in Hop by exact B1. destruct (lops_sorted rest ltac:(discriminate) Hb) as (p & m & Hpm). rewrite Hpm in Hop.
        assert (I1 : In AND (ops w1)) by (apply ops_in; [reflexivity|]; rewrite <- cnt_ops by reflexivity; apply (viable_lob AND ea _ eq_refl H1 eq_refl)).
        assert (I2 : In OR (ops w2)) by (apply ops_in; [reflexivity|]; rewrite <- cnt_ops by reflexivity; apply (viable_lob OR (Pl orl) _ eq_refl H2 eq_refl)).
        exact (sorted_split (S p) m _ _ (eq_sym Hop) I1 I2). }
      exists (Node expression_or ([t] ++ l)).
      assert (Hsel : selects eo TK ((f ++ k :: ts) ++ kc :: R) [Node expression_or ([t] ++ l)] (kc :: R)).
      { apply s_nt. cbn [body]. rewrite <- app_assoc. cbn [app] in *. eapply (s_sq _ _ _ _ [t]); [exact Hst|]. apply s_pl. exact Hs. }
      split; [apply lt_or; [exact Htt|exact Hll|discriminate]|]. split; [cbn; rewrite Hlt, Hlv; reflexivity|].
      assert (Hbal : balanced (types (f ++ k :: ts))) by (rewrite map_app; apply balanced_app; [exact Tb|]; cbn [map]; rewrite Hk; apply balanced_cons_op; [reflexivity|exact Lb]).
      assert (Hin : In OR (ops (types (f ++ k :: ts)))).
      { rewrite map_app, ops_app by exact Tb. apply in_or_app. right. cbn [map]. rewrite Hk, ops_op by reflexivity. left. reflexivity. }
      apply s_al2; [|apply s_al2; [|apply s_al1; [|exact Hsel]]].
      + intros H. apply Hnl in H; [|reflexivity|exact Hbal]. rewrite (viable_nob _ _ H eq_refl eq_refl eq_refl) in Hin. destruct Hin.
      + intros H. apply Hnl in H; [|reflexivity|exact Hbal]. rewrite (viable_nob _ _ H eq_refl eq_refl eq_refl) in Hin. destruct Hin.
      + eapply selects_viable; [exact Hsel|exact HTK].
  Qed.
End Sel.
