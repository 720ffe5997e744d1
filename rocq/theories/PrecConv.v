(** Operator levels, converse: where the textbook tree is selected, the level is safe. *)
From Verif Require Import Base LexRules Lexer Grammar Antlr GramSpec GramFacts SimFacts LevelFacts SelFacts PrecFacts.
Local Open Scope Z_scope.

(** ** Splitting level words *)
Lemma wl_split a : forall b ts, wlevel (a ++ b) ts -> a <> [] -> b <> [] ->
  exists x k y, ts = x ++ k :: y /\ wlevel a x /\ t_type k = OR /\ wlevel b y.
Proof.
  induction a as [|js a IH]; intros b ts H Ha Hb; [contradiction|]. cbn in H. destruct a as [|js' a].
  - cbn in H. inversion H as [? ? Hf|? f k ? ts' Hf Hk Ht]; subst; [contradiction|]. exists f, k, ts'. split; [reflexivity|]. split; [constructor; exact Hf|]. auto.
  - inversion H as [|? f k ? ts' Hf Hk Ht]; subst. destruct (IH b ts' Ht ltac:(discriminate) Hb) as (x & k' & y & -> & Hx & Hk' & Hy).
    exists (f ++ k :: x), k', y. split; [rewrite <- app_assoc; reflexivity|]. split; [constructor; assumption|]. auto.
Qed.
Lemma wt_split a : forall b ts, wterm (a ++ b) ts -> a <> [] -> b <> [] ->
  exists x k y, ts = x ++ k :: y /\ wterm a x /\ t_type k = AND /\ wterm b y.
Proof.
  induction a as [|js a IH]; intros b ts H Ha Hb; [contradiction|]. cbn in H. destruct a as [|js' a].
  - cbn in H. inversion H as [? ? Hf|? f k ? ts' Hf Hk Ht]; subst; [contradiction|]. exists f, k, ts'. split; [reflexivity|]. split; [constructor; exact Hf|]. auto.
  - inversion H as [|? f k ? ts' Hf Hk Ht]; subst. destruct (IH b ts' Ht ltac:(discriminate) Hb) as (x & k' & y & -> & Hx & Hk' & Hy).
    exists (f ++ k :: x), k', y. split; [rewrite <- app_assoc; reflexivity|]. split; [constructor; assumption|]. auto.
Qed.
Lemma wl_split_and a j1 j2 ts : wlevel (a ++ [j1 ++ j2]) ts -> j1 <> [] -> j2 <> [] ->
  exists x k y, ts = x ++ k :: y /\ wlevel (a ++ [j1]) x /\ t_type k = AND /\ wterm j2 y.
Proof.
  intros H H1 H2. destruct a as [|js a].
  - cbn in H. inversion H as [? ? Hf|? ? ? ? ? ? ? Ht]; subst; [|apply wlevel_ne in Ht; contradiction]. destruct (wt_split _ _ _ Hf H1 H2) as (x & k & y & -> & Hx & Hk & Hy).
    exists x, k, y. split; [reflexivity|]. split; [constructor; exact Hx|]. auto.
  - destruct (wl_split (js :: a) [j1 ++ j2] ts H ltac:(discriminate) ltac:(discriminate)) as (x & k & y & -> & Hx & Hk & Hy).
    inversion Hy as [? ? Hf|? ? ? ? ? ? ? Ht]; subst; [|apply wlevel_ne in Ht; contradiction].
    destruct (wt_split _ _ _ Hf H1 H2) as (x' & k' & y' & -> & Hx' & Hk' & Hy').
    exists (x ++ k :: x'), k', y'. split; [rewrite <- app_assoc; reflexivity|]. split; [apply wl_or; [exact Hx|exact Hk|constructor; exact Hx']|]. auto.
Qed.
Lemma wl_all jss ts : wlevel jss ts -> Forall (fun js => js <> []) jss.
Proof. induction 1 as [js f H|js f k jss ts Hf _ _ IH]; constructor; auto; intros ->; [apply wterm_len in H|apply wterm_len in Hf]; cbn in *; lia. Qed.

(** ** Viability of the other readings *)
Lemma ea_of pre js ts : wlevel (pre ++ [js]) ts -> pre <> [] -> (2 <= length js)%nat -> (exists j js0, hd [] pre = S j :: js0) -> viable [ea] (types ts).
Proof.
  intros H Hpre Hl (j & js0 & Hhd). destruct (exists_last (l := js)) as (ini & lst & ->); [destruct js; cbn in *; [lia|discriminate]|].
  assert (Hini : ini <> []) by (rewrite app_length in Hl; cbn in Hl; destruct ini; [cbn in Hl; lia|discriminate]).
  destruct (wl_split_and pre ini [lst] ts H Hini ltac:(discriminate)) as (x & k & y & -> & Hx & Hk & Hy).
  apply vnt. cbn [body]. apply vsq. rewrite map_app. cbn [map]. rewrite Hk. apply viable_cons; [|apply st_pl; [eapply lang_and_rest; exact Hy|discriminate]].
  do 2 (apply valt; right). destruct pre as [|p pre]; [contradiction|]. cbn in Hhd. subst p. eapply lang_swallow. exact Hx.
Qed.
Lemma long_split (l : list (list nat)) : Forall (fun js => js <> []) l -> ~ Forall (fun js => length js = 1%nat) l ->
  exists pre js post, l = pre ++ js :: post /\ (2 <= length js)%nat.
Proof.
  intros Hne H. apply neg_Forall_Exists_neg in H; [|intros x; apply Nat.eq_dec]. apply Exists_exists in H. destruct H as (js & Hin & Hl).
  destruct (in_split _ _ Hin) as (pre & post & ->). exists pre, js, post. split; [reflexivity|]. apply Forall_app in Hne. destruct Hne as [_ Hne]. inversion Hne as [|? ? Hj _]; subst.
  destruct js as [|a [|b js]]; [contradiction|cbn in Hl; lia|cbn; lia].
Qed.
Lemma ea_st j rest ts : wlevel ([S j] :: rest) ts -> ~ Forall (fun js => length js = 1%nat) rest -> viable [ea; St orl] (types ts).
Proof.
  intros H Hn. pose proof (wl_all _ _ H) as Hall. inversion Hall as [|? ? _ Hall']; subst. destruct (long_split rest Hall' Hn) as (pre & js & post & -> & Hl).
  destruct post as [|p post].
  - rewrite <- (app_nil_r (types ts)). apply viable_cons; [|apply vst0]. eapply (ea_of ([S j] :: pre) js); [exact H|discriminate|exact Hl|cbn; eauto].
  - replace ([S j] :: pre ++ js :: p :: post) with (([S j] :: pre ++ [js]) ++ p :: post) in H by (cbn; rewrite <- app_assoc; reflexivity).
    destruct (wl_split _ _ _ H ltac:(discriminate) ltac:(discriminate)) as (x & k & y & -> & Hx & Hk & Hy).
    rewrite map_app. cbn [map]. rewrite Hk. apply viable_cons; [|eapply lang_or_rest; exact Hy]. eapply (ea_of ([S j] :: pre) js); [exact Hx|discriminate|exact Hl|cbn; eauto].
Qed.
Lemma ea_pl j rest ts : wlevel ([S j] :: rest) ts -> ~ Forall (fun js => length js = 1%nat) (removelast rest) -> viable [ea; Pl orl] (types ts).
Proof.
  intros H Hn. assert (Hne : rest <> []) by (intros ->; apply Hn; constructor). destruct (exists_last Hne) as (ini & lst & ->).
  rewrite removelast_last in Hn. destruct (wl_split ([S j] :: ini) [lst] ts H ltac:(discriminate) ltac:(discriminate)) as (x & k & y & -> & Hx & Hk & Hy).
  pose proof (ea_st _ _ _ Hx Hn) as Hv. apply viable_cons_inv in Hv. destruct Hv as (w1 & w2 & Hw & H1 & H2).
  rewrite map_app, Hw. cbn [map]. rewrite Hk, <- app_assoc. apply viable_cons; [exact H1|].
  apply st_pl; [|destruct w2; discriminate]. clear -H2 Hy. apply viable_one in H2. destruct H2 as (z & Hz & <-).
  remember (St orl) as e eqn:He. induction Hz as [| | | | | | | |e1|e1 a b Ha _ Hb IH]; try discriminate He; injection He as ->.
  - cbn. eapply lang_or_rest. exact Hy.
  - rewrite ttypes_app, <- app_assoc. apply vst1; [|apply IH; reflexivity]. apply viable_one. exists a. auto.
Qed.
Lemma eo_st js x k jss y : wterm js x -> t_type k = OR -> wlevel jss y -> viable [eo; St andl; St orl] (types (x ++ k :: y)).
Proof.
  intros Hx Hk Hy. destruct Hy as [js2 f Hf|js2 f k2 jss y Hf Hk2 Hy].
  - rewrite <- (app_nil_r (types _)). apply viable_cons; [|apply (viable_cons _ _ [] []); apply vst0].
    eapply lang_or; [eapply wl_more; [exact Hx|exact Hk|constructor; exact Hf]|cbn; lia].
  - replace (x ++ k :: f ++ k2 :: y) with ((x ++ k :: f) ++ k2 :: y) by (rewrite <- app_assoc; reflexivity). rewrite map_app. apply viable_cons.
    + eapply lang_or; [eapply wl_more; [exact Hx|exact Hk|constructor; exact Hf]|cbn; lia].
    + apply (viable_cons _ _ []); [apply vst0|]. cbn [map]. rewrite Hk2. eapply lang_or_rest. exact Hy.
Qed.
Lemma eo_pl js x k jss y : wterm js x -> t_type k = OR -> wlevel jss y -> (2 <= length jss)%nat -> viable [eo; St andl; Pl orl] (types (x ++ k :: y)).
Proof.
  intros Hx Hk Hy Hl. destruct Hy as [js2 f Hf|js2 f k2 jss y Hf Hk2 Hy]; [cbn in Hl; lia|].
  replace (x ++ k :: f ++ k2 :: y) with ((x ++ k :: f) ++ k2 :: y) by (rewrite <- app_assoc; reflexivity). rewrite map_app. apply viable_cons.
  - eapply lang_or; [eapply wl_more; [exact Hx|exact Hk|constructor; exact Hf]|cbn; lia].
  - apply (viable_cons _ _ []); [apply vst0|]. cbn [map]. rewrite Hk2. apply st_pl; [eapply lang_or_rest; exact Hy|discriminate].
Qed.

(** ** Words of textbook trees *)
Definition rooted (t : ptree) : Prop := exists r, derives (NT r) [t].
Lemma factor_word j t : factor_t j t -> rooted t -> wfactor j (leaves t).
Proof.
  induction 1 as [ch|ch|j k t _ IH]; intros (r & Hr).
  - apply wf_atom. left. inversion Hr; subst. apply viable_one. exists [Node expression_basic ch]. split; [exact Hr|]. unfold ttypes. cbn. rewrite app_nil_r. reflexivity.
  - apply wf_atom. right. inversion Hr; subst. apply viable_one. exists [Node expression_group ch]. split; [exact Hr|]. unfold ttypes. cbn. rewrite app_nil_r. reflexivity.
  - inversion Hr as [|? ? Hb| | | | | | | |]; subst. cbn [body] in Hb. inversion Hb as [| |? ? x y Hx Hy Heq1 Heq2| | | | | | |]; subst.
    inversion Hx as [? k' Hk| | | | | | | | |]; subst. cbn in Heq2. injection Heq2 as Hkk Hyy. subst k' y. destruct Hk as [Hk|[]].
    cbn. rewrite app_nil_r. apply wf_not; [auto|]. apply IH. unfold rooted. alts; eauto.
Qed.
Lemma st_inv e x : derives (St e) x -> x = [] \/ exists a b, x = a ++ b /\ derives e a /\ derives (St e) b.
Proof. intros H. inversion H; subst; [auto|right; eauto]. Qed.
Lemma one_node r x : derives (NT r) x -> exists ch, x = [Node r ch].
Proof. intros H. inversion H; subst. eauto. Qed.
Ltac nodes := repeat match goal with H : derives (NT _) _ |- _ => let ch := fresh "ch" in pose proof (one_node _ _ H) as [ch ->]; revert H end; intros.
Lemma sep_inv sep a k t l : (forall x, derives a x -> exists t', x = [t'] /\ rooted t') -> derives (St (Sq (Tk [sep]) a)) (Leaf k :: t :: l) ->
  t_type k = sep /\ derives a [t] /\ rooted t /\ derives (St (Sq (Tk [sep]) a)) l.
Proof.
  intros Ha H. apply st_inv in H. destruct H as [H|(x & y & Heq & Hx & Hy)]; [discriminate|].
  inversion Hx as [| |? ? x1 x2 H1 H2| | | | | | |]; subst. inversion H1 as [? k' Hk| | | | | | | | |]; subst. destruct Hk as [Hk|[]].
  destruct (Ha _ H2) as (t' & -> & Hr). cbn in Heq. injection Heq as <- <- ->. auto.
Qed.
Lemma A4_one x : derives A4 x -> exists t, x = [t] /\ rooted t.
Proof. intros H. unfold rooted. alts; match goal with H : derives (NT _) _ |- _ => pose proof (one_node _ _ H) as [ch ->] end; eauto. Qed.
Lemma A3_one x : derives A3 x -> exists t, x = [t] /\ rooted t.
Proof. intros H. unfold rooted. alts; match goal with H : derives (NT _) _ |- _ => pose proof (one_node _ _ H) as [ch ->] end; eauto. Qed.
Lemma O4_one x : derives O4 x -> exists t, x = [t] /\ rooted t.
Proof. intros H. unfold rooted. alts; match goal with H : derives (NT _) _ |- _ => pose proof (one_node _ _ H) as [ch ->] end; eauto. Qed.
Lemma factors_word js l : factors_t js l -> derives (St andl) l -> js = [] /\ l = [] \/ exists k x, flat_map leaves l = k :: x /\ t_type k = AND /\ wterm js x.
Proof.
  induction 1 as [|j js k t l Ht Hl IH]; intros Hd; [auto|]. right. destruct (sep_inv AND A4 k t l A4_one Hd) as (Hk & Ha & Hr & Hd').
  pose proof (factor_word _ _ Ht Hr) as Hw. cbn [flat_map leaves app]. destruct (IH Hd') as [[-> ->]|(k' & x & Hx & Hk' & Hw')].
  - exists k, (leaves t). cbn. rewrite app_nil_r. split; [reflexivity|]. split; [exact Hk|]. constructor. exact Hw.
  - exists k, (leaves t ++ k' :: x). rewrite Hx. split; [reflexivity|]. split; [exact Hk|]. constructor; assumption.
Qed.
Lemma term_word js t : term_t js t -> rooted t -> wterm js (leaves t).
Proof.
  intros [j t' Ht|j js' t' l Ht Hl Hne] Hr; [constructor; apply factor_word; assumption|]. destruct Hr as (r & Hr).
  inversion Hr as [|? ? Hb| | | | | | | |]; subst. cbn [body] in Hb. inversion Hb as [| |? ? x y Hx Hy Heq1 Heq2| | | | | | |]; subst.
  destruct (A3_one _ Hx) as (t1 & -> & Hr1). cbn in Heq2. injection Heq2 as <- ->.
  assert (Hst : derives (St andl) l) by (inversion Hy; subst; apply d_st1; assumption).
  change (leaves (Node expression_and ([t1] ++ l))) with (leaves t1 ++ flat_map leaves l). destruct (factors_word _ _ Hl Hst) as [[-> _]|(k & x & -> & Hk & Hw)]; [contradiction|]. constructor; [apply factor_word; assumption|exact Hk|exact Hw].
Qed.
Lemma terms_word jss l : terms_t jss l -> derives (St orl) l -> jss = [] /\ l = [] \/ exists k x, flat_map leaves l = k :: x /\ t_type k = OR /\ wlevel jss x.
Proof.
  induction 1 as [|j js k t l Ht Hl IH]; intros Hd; [auto|]. right. destruct (sep_inv OR O4 k t l O4_one Hd) as (Hk & Ha & Hr & Hd').
  pose proof (term_word _ _ Ht Hr) as Hw. cbn [flat_map leaves app]. destruct (IH Hd') as [[-> ->]|(k' & x & Hx & Hk' & Hw')].
  - exists k, (leaves t). cbn. rewrite app_nil_r. split; [reflexivity|]. split; [exact Hk|]. constructor. exact Hw.
  - exists k, (leaves t ++ k' :: x). rewrite Hx. split; [reflexivity|]. split; [exact Hk|]. constructor; assumption.
Qed.
Lemma level_word jss t : level_t jss t -> rooted t -> wlevel jss (leaves t).
Proof.
  intros [js t' Ht|js jss' t' l Ht Hl Hne] Hr; [constructor; apply term_word; assumption|]. destruct Hr as (r & Hr).
  inversion Hr as [|? ? Hb| | | | | | | |]; subst. cbn [body] in Hb. inversion Hb as [| |? ? x y Hx Hy Heq1 Heq2| | | | | | |]; subst.
  destruct (O4_one _ Hx) as (t1 & -> & Hr1). cbn in Heq2. injection Heq2 as <- ->.
  assert (Hst : derives (St orl) l) by (inversion Hy; subst; apply d_st1; assumption).
  change (leaves (Node expression_or ([t1] ++ l))) with (leaves t1 ++ flat_map leaves l). destruct (terms_word _ _ Hl Hst) as [[-> _]|(k & x & -> & Hk & Hw)]; [contradiction|]. constructor; [apply term_word; assumption|exact Hk|exact Hw].
Qed.

(** ** Inverting the selection of the textbook tree *)
Lemma sel_nt r K s x rr : selects (NT r) K s x rr -> exists ch, x = [Node r ch] /\ selects (body r) K s ch rr.
Proof. intros H. inversion H; subst. eauto. Qed.
Lemma sel_sq a b K s x rr : selects (Sq a b) K s x rr -> exists y z r1, x = y ++ z /\ selects a (b :: K) s y r1 /\ selects b K r1 z rr.
Proof. intros H. inversion H; subst. eauto 8. Qed.
Lemma sel_tk l K s x rr : selects (Tk l) K s x rr -> exists k, x = [Leaf k] /\ s = k :: rr /\ In (t_type k) l.
Proof. intros H. inversion H; subst. eauto. Qed.
Lemma sel_st e K s x rr : selects (St e) K s x rr -> x = [] /\ s = rr \/ selects (Sq e (St e)) K s x rr.
Proof. intros H. inversion H; subst; auto. Qed.
Lemma sel_pl e K s x rr : selects (Pl e) K s x rr -> selects (Sq e (St e)) K s x rr.
Proof. intros H. inversion H; subst; auto. Qed.
Lemma sel_al a b K s x rr : selects (Al a b) K s x rr -> selects a K s x rr \/ ~ viable (a :: K) (types s) /\ selects b K s x rr.
Proof. intros H. inversion H; subst; auto. Qed.
Lemma sel_sep sep a K s k t l rr : (forall x, derives a x -> exists t', x = [t'] /\ rooted t') ->
  selects (Sq (Sq (Tk [sep]) a) (St (Sq (Tk [sep]) a))) K s (Leaf k :: t :: l) rr ->
  exists s1 r1, s = k :: s1 /\ t_type k = sep /\ selects a (St (Sq (Tk [sep]) a) :: K) s1 [t] r1 /\ selects (St (Sq (Tk [sep]) a)) K r1 l rr.
Proof.
  intros Ha H. apply sel_sq in H. destruct H as (x & y & r1 & Heq & H1 & H2). apply sel_sq in H1. destruct H1 as (x1 & x2 & r0 & -> & H0 & H1).
  apply sel_tk in H0. destruct H0 as (k' & -> & -> & [Hk|[]]). destruct (Ha _ (proj1 (selects_derives _ _ _ _ _ H1))) as (t' & -> & _).
  cbn in Heq. injection Heq as <- <- ->. eauto 8.
Qed.
Lemma sel_eq e K s x rr : selects e K s x rr -> s = flat_map leaves x ++ rr.
Proof. intros H. exact (proj2 (selects_derives _ _ _ _ _ H)). Qed.
Lemma sel_drv e K s x rr : selects e K s x rr -> derives e x.
Proof. intros H. exact (proj1 (selects_derives _ _ _ _ _ H)). Qed.

Lemma and_rest_conv KK js l : factors_t js l -> forall s r, selects (St andl) KK s l r ->
  (forall js' x, wterm js' x -> viable (eo :: St andl :: KK) (types (x ++ r))) -> Forall (eq 0%nat) js.
Proof.
  induction 1 as [|j js k t l Ht Hl IH]; intros s r Hs Hv; [constructor|].
  pose proof (factors_word (j :: js) _ (fs_cons _ _ _ _ _ Ht Hl) (sel_drv _ _ _ _ _ Hs)) as [[? _]|(k0 & x0 & Hx0 & _ & Hw0)]; [discriminate|].
  apply sel_st in Hs. destruct Hs as [[? _]|Hs]; [discriminate|]. destruct (sel_sep AND A4 KK s k t l r A4_one Hs) as (s1 & r1 & -> & Hk & Ha & Hl').
  constructor; [|eapply IH; eassumption]. destruct Ht as [| |j k' t Ht]; [reflexivity|reflexivity|exfalso].
  pose proof (sel_eq _ _ _ _ _ Ha) as E1. pose proof (sel_eq _ _ _ _ _ Hl') as E2.
  apply sel_al in Ha. destruct Ha as [Ha|[_ Ha]]; [apply sel_nt in Ha; destruct Ha as (? & ? & _); discriminate|].
  apply sel_al in Ha. destruct Ha as [Ha|[_ Ha]]; [apply sel_nt in Ha; destruct Ha as (? & ? & _); discriminate|].
  apply sel_al in Ha. destruct Ha as [Ha|[Hno Ha]]; [apply sel_nt in Ha; destruct Ha as (? & ? & _); discriminate|].
  apply Hno. cbn [flat_map leaves] in Hx0. cbn [app] in Hx0. injection Hx0 as <- Hx0. cbn [flat_map leaves] in E1.
  specialize (Hv _ _ Hw0). rewrite <- Hx0 in Hv. subst s1 r1. cbn [app] in *. rewrite !app_nil_r in *. cbn [app] in *. rewrite <- app_assoc in Hv. exact Hv.
Qed.

Section Conv.
  Variables (c : ttype) (K : list ebnf) (kc : token) (R : list token).
  Hypothesis Hc : c = R_PAREN \/ c = R_SQUARE_BRACKET.
  Hypothesis Hkc : t_type kc = c.
  Hypothesis HKv : viable K (types R).
  Notation TK := (Tk [c] :: K).

  Lemma lv2 Ks b : flats Ks -> viable Ks (types b) -> viable (Ks ++ TK) (types (b ++ kc :: R)).
  Proof. intros Hf Hv. apply lv; try assumption. eapply viable_balanced; eassumption. Qed.

  (** One operand of [|]. *)
  Lemma O4_conv Ks js t s b : flats Ks -> Ks <> [] -> term_t js t -> selects O4 (Ks ++ TK) s [t] (b ++ kc :: R) -> viable (Ks ++ TK) (types (b ++ kc :: R)) ->
    ((forall js' x, wterm js' x -> viable (eo :: St andl :: Ks) (types (x ++ b))) -> Forall (eq 0%nat) (tl js)) /\
    (forall j, js = [S j] -> ~ viable (ea :: Ks) (types (leaves t ++ b))).
  Proof.
    intros Hfl _ Ht Hs HV. pose proof (sel_eq _ _ _ _ _ Hs) as Es. cbn in Es. rewrite app_nil_r in Es. split.
    - intros Hv. destruct Ht as [j t Ht|j js t l Ht Hl Hne]; [constructor|]. cbn [tl].
      apply sel_al in Hs. destruct Hs as [Ha|[_ Ha]]; [apply sel_nt in Ha; destruct Ha as (? & ? & _); discriminate|].
      apply sel_al in Ha. destruct Ha as [Ha|[_ Ha]]; [apply sel_nt in Ha; destruct Ha as (? & ? & _); discriminate|].
      apply sel_al in Ha. destruct Ha as [Ha|[_ Ha]]; [|apply sel_nt in Ha; destruct Ha as (? & ? & _); discriminate].
      apply sel_nt in Ha. destruct Ha as (ch & Heq & Ha). injection Heq as <-. cbn [body] in Ha. apply sel_sq in Ha. destruct Ha as (y & z & r1 & Heq & H1 & H2).
      destruct (A3_one _ (sel_drv _ _ _ _ _ H1)) as (t1 & -> & _). cbn in Heq. injection Heq as <- <-.
      pose proof (sel_pl _ _ _ _ _ H2) as H2'.
      eapply (and_rest_conv (Ks ++ TK) js l Hl r1 (b ++ kc :: R)).
      + apply s_st1; [|exact H2']. apply vsq_open. eapply selects_viable; [exact H2'|exact HV].
      + intros js' x Hx. specialize (Hv _ _ Hx). rewrite app_assoc. change (eo :: St andl :: Ks ++ TK) with ((eo :: St andl :: Ks) ++ TK). apply lv2; [|exact Hv].
        constructor; [reflexivity|]. constructor; [reflexivity|exact Hfl].
    - intros j -> Hv. assert (Hn : exists k' t', t = Node expression_not [Leaf k'; t']) by (clear -Ht; inversion Ht as [? ? Hf|? ? ? ? ? ? Hne]; subst; [|contradiction]; inversion Hf; subst; eauto). destruct Hn as (k' & t' & Hn). rewrite Hn in Hs.
      apply sel_al in Hs. destruct Hs as [Ha|[_ Ha]]; [apply sel_nt in Ha; destruct Ha as (? & ? & _); discriminate|].
      apply sel_al in Ha. destruct Ha as [Ha|[_ Ha]]; [apply sel_nt in Ha; destruct Ha as (? & ? & _); discriminate|].
      apply sel_al in Ha. destruct Ha as [Ha|[Hno Ha]]; [apply sel_nt in Ha; destruct Ha as (? & ? & _); discriminate|].
      apply Hno. rewrite Es, app_assoc. change (ea :: Ks ++ TK) with ((ea :: Ks) ++ TK). apply lv2; [constructor; [reflexivity|exact Hfl]|exact Hv].
  Qed.

  Lemma or_rest_conv jss l : terms_t jss l -> forall s, selects (St orl) TK s l (kc :: R) -> safe_rest jss.
  Proof.
    assert (HTK : viable TK (types (kc :: R))) by (apply (lv2 [] []); [constructor|apply viable_nil]).
    induction 1 as [|js jss k t l Ht Hl IH]; intros s Hs; [exact I|]. apply sel_st in Hs. destruct Hs as [[? _]|Hs]; [discriminate|].
    destruct (sel_sep OR O4 TK s k t l (kc :: R) O4_one Hs) as (s1 & r1 & -> & Hk & Ha & Hl'). cbn [safe_rest].
    pose proof (sel_eq _ _ _ _ _ Hl') as E2. pose proof (terms_word _ _ Hl (sel_drv _ _ _ _ _ Hl')) as Hw.
    assert (Hrt : rooted t) by (destruct (O4_one _ (sel_drv _ _ _ _ _ Ha)) as (t' & Heq & Hr); injection Heq as ->; exact Hr).
    pose proof (term_word _ _ Ht Hrt) as Hwt.
    assert (HV : viable (St orl :: TK) (types r1)) by (eapply selects_viable; [exact Hl'|exact HTK]). rewrite E2 in Ha, HV.
    destruct (O4_conv [St orl] js t s1 (flat_map leaves l) ltac:(repeat constructor) ltac:(discriminate) Ht Ha HV) as [C1 C2].
    split; [|split].
    - intros Hne. apply C1. intros js' x Hx. destruct Hw as [[-> _]|(k' & y & -> & Hk' & Hy)]; [contradiction|]. eapply eo_st; eassumption.
    - intros j ->. destruct (Forall_dec (fun js' : list nat => length js' = 1%nat) (fun js' => Nat.eq_dec (length js') 1) jss) as [H|H]; [exact H|exfalso].
      apply (C2 j eq_refl). destruct Hw as [[-> ->]|(k' & y & -> & Hk' & Hy)]; [exfalso; apply H; constructor|].
      eapply (ea_st j jss); [|exact H]. apply wl_more; assumption.
    - eapply IH. exact Hl'.
  Qed.
  Lemma level_conv jss t s : level_t jss t -> selects E5 TK s [t] (kc :: R) -> safe_level jss.
  Proof.
    assert (HTK : viable TK (types (kc :: R))) by (apply (lv2 [] []); [constructor|apply viable_nil]).
    intros [js t' Ht|js jss' t' l Ht Hl Hne] Hs; [exact I|].
    apply sel_al in Hs. destruct Hs as [Ha|[_ Ha]]; [apply sel_nt in Ha; destruct Ha as (? & ? & _); discriminate|].
    apply sel_al in Ha. destruct Ha as [Ha|[_ Ha]]; [apply sel_nt in Ha; destruct Ha as (? & ? & _); discriminate|].
    apply sel_al in Ha. destruct Ha as [Ha|[_ Ha]]; [|exfalso; apply sel_al in Ha; destruct Ha as [Ha|[_ Ha]]; apply sel_nt in Ha; destruct Ha as (? & ? & _); discriminate].
    apply sel_nt in Ha. destruct Ha as (ch & Heq & Ha). injection Heq as <-. cbn [body] in Ha. apply sel_sq in Ha. destruct Ha as (y & z & r1 & Heq & H1 & H2).
    destruct (O4_one _ (sel_drv _ _ _ _ _ H1)) as (t1 & -> & Hrt). cbn in Heq. injection Heq as <- <-.
    pose proof (sel_pl _ _ _ _ _ H2) as H2'.
    assert (HV : viable (Sq orl (St orl) :: TK) (types r1)) by (eapply selects_viable; [exact H2'|exact HTK]).
    assert (Hl' : selects (St orl) TK r1 l (kc :: R)) by (apply s_st1; [|exact H2']; apply vsq_open; exact HV).
    pose proof (or_rest_conv _ _ Hl _ Hl') as Hsr.
    pose proof (sel_eq _ _ _ _ _ Hl') as E2. pose proof (terms_word _ _ Hl (sel_drv _ _ _ _ _ Hl')) as [[? _]|(k & x & Hx & Hk & Hw)]; [contradiction|].
    pose proof (term_word _ _ Ht Hrt) as Hwt.
    assert (HV' : viable (Pl orl :: TK) (types r1)) by (eapply selects_viable; [exact H2|exact HTK]). rewrite E2, Hx in H1, HV'.
    destruct (O4_conv [Pl orl] js t' s (k :: x) ltac:(repeat constructor) ltac:(discriminate) Ht H1 HV') as [C1 C2].
    destruct jss' as [|js2 jss2]; [contradiction|]. cbn [safe_level]. split; [|split; [|exact Hsr]].
    - intros Hlen. apply C1. intros js' x' Hx'. eapply eo_pl; eassumption.
    - intros j ->. destruct (Forall_dec (fun js' : list nat => length js' = 1%nat) (fun js' => Nat.eq_dec (length js') 1) (removelast (js2 :: jss2))) as [H|H]; [exact H|exfalso].
      apply (C2 j eq_refl). eapply (ea_pl j (js2 :: jss2)); [|exact H]. apply wl_more; assumption.
  Qed.
End Conv.
