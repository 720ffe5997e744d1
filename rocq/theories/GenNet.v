(** The methods of the generated parser and the states of its network. *)
From Verif Require Import Base LexRules Lexer Grammar Antlr GramSpec GramFacts LevelFacts SelFacts GenParser Atn AtnFacts AtnNets.
Local Open Scope Z_scope.
Opaque parser_atn.
Notation P := parser_atn.
Notation ppath := (path P (see_tree P) wrap_tree).
Notation pchain := (chain P pbody psame false).
Notation pgls := (gls wrap_tree psee pbody).
Notation pnm := (nm P).

Definition plang := frag_lang P (see_tree P) wrap_tree psee pbody psame false (psame_ok P) (see_tree_sym P)
  (fun H => match Bool.diff_false_true H with end) parser_stops parser_bodies.
Definition ppath_gls := path_gls P (see_tree P) wrap_tree psee pbody psame false (psame_ok P) (see_tree_sym P)
  (fun H => match Bool.diff_false_true H with end) parser_stops parser_bodies.
Definition pgls_path := gls_path P (see_tree P) wrap_tree psee pbody psame false (psame_ok P)
  (fun H => match Bool.diff_false_true H with end) parser_bodies.

Lemma gls_all K x : pgls (map gof K) x <-> derives_all K x.
Proof.
  split.
  - remember (map gof K) as G eqn:HG. intros H. revert K HG. induction H as [|g G x y Hg _ IH]; intros K HG.
    + destruct K; [constructor|discriminate].
    + destruct K as [|e K]; [discriminate|]. injection HG as -> ->. constructor; [eapply gl_derives; [exact Hg|reflexivity]|auto].
  - induction 1 as [|e K x y He _ IH]; cbn [map]; [constructor|]. constructor; [apply derives_gl; exact He|exact IH].
Qed.

(** ** Prediction in the network and in the grammar *)
(** A configuration of the network decomposes into paths. *)
Inductive segs : Z -> list Z -> list ttype -> Prop :=
| sg_base s x v : ppath s x v -> stop_state P v -> segs s [] (ttypes x)
| sg_push s x v f st w : ppath s x v -> stop_state P v -> segs f st w -> segs s (f :: st) (ttypes x ++ w).
Lemma segs_pre s st w x t : segs t st w -> ppath s x t -> segs s st (ttypes x ++ w).
Proof.
  intros H Hp. inversion H as [? y v Hy Hv|? y v f st' w' Hy Hv Hw]; subst.
  - rewrite <- ttypes_app. econstructor; [|exact Hv]. eapply path_app; eassumption.
  - rewrite app_assoc, <- ttypes_app. econstructor; [|exact Hv|exact Hw]. eapply path_app; eassumption.
Qed.
Lemma known_rule s q r pr t : In (RuleT q r pr, t) (out P s) -> exists r', rule_named r = Some r'.
Proof.
  assert (H : forallb (fun e => match fst (snd e) with RuleT _ r _ => match rule_named r with Some _ => true | None => false end | _ => true end) (a_edges P) = true) by (vm_compute; reflexivity).
  unfold out. rewrite in_map_iff. intros (e & He & Hin). apply filter_In in Hin. destruct Hin as [Hin _]. rewrite forallb_forall in H. specialize (H _ Hin). rewrite He in H. cbn in H.
  destruct (rule_named r); [eauto|discriminate].
Qed.
Lemma ttypes_wrap r r' y : rule_named r = Some r' -> ttypes (wrap_tree r y) = ttypes y.
Proof. intros H. unfold wrap_tree. rewrite H. unfold ttypes. cbn [flat_map leaves]. rewrite app_nil_r. reflexivity. Qed.
Lemma reach_segs s st w : reach P s st w -> segs s st w.
Proof.
  induction 1 as [s Hs|s f st w Hs _ IH|s l t st w Hin Hl _ IH|s l t st x w Hin Hl _ IH|s q r pr t st w Hin _ IH].
  - apply (sg_base s [] s); [constructor|exact Hs].
  - apply (sg_push s [] s f st w); [constructor|exact Hs|exact IH].
  - apply (segs_pre s st w [] t IH). eapply path_skip; eassumption.
  - apply (segs_pre s st w [Leaf (mkTok x [] 0 0 0 0)] t IH). eapply p_sym; [exact Hin|exact Hl|constructor].
  - inversion IH as [|? y v f st' w' Hy Hv Hw]; subst. destruct (known_rule _ _ _ _ _ Hin) as (r' & Hr).
    rewrite <- (ttypes_wrap _ _ y Hr). apply (segs_pre _ _ _ _ _ Hw). rewrite <- (app_nil_r (wrap_tree r y)). eapply p_call; [exact Hin|exact Hy|exact Hv|constructor].
Qed.
Lemma path_reach s x t : ppath s x t -> forall st w, reach P t st w -> reach P s st (ttypes x ++ w).
Proof.
  induction 1 as [s|s l t x v Hin Hl _ IH|s l t i x v Hin Hl _ IH|s q r pr t y e x v Hin _ IHq Hst _ IH]; intros st w Hw.
  - exact Hw.
  - eapply r_silent; eauto.
  - destruct i as [k|]; [|destruct Hl]. cbn. eapply r_sym; [exact Hin|exact Hl|apply IH; exact Hw].
  - destruct (known_rule _ _ _ _ _ Hin) as (r' & Hr). rewrite ttypes_app, (ttypes_wrap _ _ _ Hr), <- app_assoc. eapply r_call; [exact Hin|]. apply IHq. apply r_ret; [exact Hst|]. apply IH. exact Hw.
Qed.
(** The pending right-hand sides [K] are what the network has in state [q] with stack [st]. *)
Inductive pend : list ebnf -> Z -> list Z -> Prop :=
| pd_base K q v : pchain (map gof K) q v -> stop_state P v -> pend K q []
| pd_push K1 K2 q v f st : pchain (map gof K1) q v -> stop_state P v -> pend K2 f st -> pend (K1 ++ K2) q (f :: st).
Theorem reach_viable K q st : pend K q st -> forall w, reach P q st w <-> viable K w.
Proof.
  intros H w. split.
  - intros Hr. apply reach_segs in Hr. revert w Hr. induction H as [K q v Hc Hv|K1 K2 q v f st Hc Hv _ IH]; intros w Hr.
    + inversion Hr as [? x v' Hp Hv'|]; subst. destruct (ppath_gls _ _ _ Hp Hv' _ _ Hc (parser_stops _ Hv)) as [_ G]. apply gls_all in G. exists x. split; [exact G|reflexivity].
    + inversion Hr as [|? x v' f' st' w' Hp Hv' Hw]; subst. destruct (ppath_gls _ _ _ Hp Hv' _ _ Hc (parser_stops _ Hv)) as [_ G]. apply gls_all in G.
      apply viable_app2; [exists x; split; [exact G|reflexivity]|auto].
  - revert w. induction H as [K q v Hc Hv|K1 K2 q v f st Hc Hv _ IH]; intros w Hw.
    + destruct Hw as (x & Hx & <-). apply gls_all in Hx. pose proof (pgls_path _ _ Hx _ _ Hc) as Hp. fold (ttypes x). rewrite <- (app_nil_r (ttypes x)). eapply path_reach; [exact Hp|]. constructor. exact Hv.
    + apply viable_split in Hw. destruct Hw as (w1 & w2 & -> & (x & Hx & <-) & H2). apply gls_all in Hx. pose proof (pgls_path _ _ Hx _ _ Hc) as Hp.
      eapply path_reach; [exact Hp|]. apply r_ret; [exact Hv|]. auto.
Qed.
Lemma pend_cons e K q t st : pfrag (gof e) q t -> pend K t st -> pend (e :: K) q st.
Proof.
  intros Hf H. inversion H as [K' ? v Hc Hv|K1 K2 ? v f st' Hc Hv Hp]; subst.
  - eapply pd_base; [|exact Hv]. cbn [map]. eapply c_cons; eassumption.
  - change (e :: K1 ++ K2) with ((e :: K1) ++ K2). eapply pd_push; [|exact Hv|exact Hp]. cbn [map]. eapply c_cons; eassumption.
Qed.
Lemma pend_skip K q l t st : out P q = [(l, t)] -> silent l -> pend K t st -> pend K q st.
Proof.
  intros Ho Hl H. inversion H as [K' ? v Hc Hv|K1 K2 ? v f st' Hc Hv Hp]; subst.
  - eapply pd_base; [|exact Hv]. eapply c_skip; eassumption.
  - eapply pd_push; [|exact Hv|exact Hp]. eapply c_skip; eassumption.
Qed.
Lemma nrm_S A n s : nrm A (S n) s = match out A s with [(l, t)] => if silentb l then nrm A n t else s | _ => s end.
Proof. reflexivity. Qed.
Lemma pend_nrm n : forall K q st, pend K (nrm P n q) st -> pend K q st.
Proof.
  induction n as [|n IH]; intros K q st H; [exact H|]. rewrite nrm_S in H.
  destruct (out P q) as [|[l t] [|]] eqn:Ho; try exact H. destruct (silentb l) eqn:Hl; [|exact H]. eapply pend_skip; [exact Ho|apply silentb_ok; exact Hl|auto].
Qed.
Lemma pend_nm K q st : pend K (pnm q) st -> pend K q st.
Proof. exact (pend_nrm 8 K q st). Qed.
Lemma pend_call r K t st : pend K t st -> pend (body r :: K) (start_of P (rule_num r)) (t :: st).
Proof.
  intros H. destruct (parser_frag r) as (v & Hf & Hv). change (body r :: K) with ([body r] ++ K). eapply pd_push; [|exact Hv|exact H]. cbn [map]. eapply c_cons; [exact Hf|constructor].
Qed.

(** ** Synchronisation *)
Lemma path_next s x t : ppath s x t -> stop_state P t -> match ttypes x with [] => ends P s | y :: _ => next P s (tnum y) end.
Proof.
  induction 1 as [s|s l t x v Hin Hl _ IH|s l t i x v Hin Hl _ IH|s q r pr t y e x v Hin _ IHq Hst _ IH]; intros Hv.
  - constructor. exact Hv.
  - specialize (IH Hv). destruct (ttypes x); [eapply e_silent|eapply n_silent]; eassumption.
  - destruct i as [k|]; [|destruct Hl]. cbn. eapply n_sym; eassumption.
  - specialize (IH Hv). specialize (IHq Hst). destruct (known_rule _ _ _ _ _ Hin) as (r' & Hr). rewrite ttypes_app, (ttypes_wrap _ _ _ Hr).
    destruct (ttypes y); cbn [app]; [destruct (ttypes x); [eapply e_call|eapply n_over]; eassumption|eapply n_in; eassumption].
Qed.
Lemma reach_next s st w : reach P s st w -> ends P s \/ exists y w', w = y :: w' /\ next P s (tnum y).
Proof.
  intros H. apply reach_segs in H. inversion H as [? x v Hp Hv|? x v f st' w' Hp Hv Hw]; subst; pose proof (path_next _ _ _ Hp Hv) as Hn; destruct (ttypes x); auto; right; eexists _, _; (split; [reflexivity|exact Hn]).
Qed.

(** ** Statements in place *)
(** Statement [s], begun in state [q], ends in state [v]; single epsilon transitions are
    followed on the way. *)
Inductive placed : stm -> Z -> Z -> Prop :=
| pl_match n t lab v : out P n = [(lab, v)] -> psame [t] lab = true -> placed (Match n t) n (pnm v)
| pl_set n x l lab v : out P n = [(lab, v)] -> psame l lab = true -> placed (MatchSet n x l) n (pnm v)
| pl_call n r pr v : out P n = [(RuleT (start_of P (rule_num r)) (rule_num r) pr, v)] -> placed (Call n r) n (pnm v)
| pl_seq a b q t v : placed a q t -> placed b t v -> placed (Seq a b) q v
| pl_switch n cases v : cases <> [] -> Forall2 (fun c e => fst e = Epsilon /\ placed (snd c) (pnm (snd e)) v) cases (out P n) -> placed (Switch n cases) n v
| pl_if n x s a b : out P n = [(Epsilon, a); (Epsilon, b)] -> placed s (pnm a) (pnm b) -> placed (IfLa n x s) n (pnm b)
| pl_pred n d l v : l <> [] -> nth_error (a_decisions P) d = Some n -> Forall2 (fun s e => fst e = Epsilon /\ placed s (pnm (snd e)) v) l (out P n) -> placed (Pred n d l) n v
| pl_predopt n d s a b : nth_error (a_decisions P) d = Some n -> out P n = [(Epsilon, a); (Epsilon, b)] -> placed s (pnm a) (pnm b) -> placed (PredOpt n d s) n (pnm b)
| pl_loopla s m x q a b : placed s q m -> out P m = [(Epsilon, a); (Epsilon, b)] -> pnm a = q -> placed (LoopLa s m x) q (pnm b)
| pl_looppred s m d q a b : nth_error (a_decisions P) d = Some m -> placed s q m -> out P m = [(Epsilon, a); (Epsilon, b)] -> pnm a = q -> placed (LoopPred s m d) q (pnm b)
| pl_dola n s m x v : placed (LoopLa s m x) (pnm n) v -> placed (DoLa n s m x) (pnm n) v
| pl_dopred n s m d v : placed (LoopPred s m d) (pnm n) v -> placed (DoPred n s m d) (pnm n) v.

Definition is_dec (d : nat) (n : Z) : bool := match nth_error (a_decisions P) d with Some m => m =? n | None => false end.
Definition at_state (n q : Z) (x : option Z) : option Z := if q =? n then x else None.
Fixpoint place (s : stm) (q : Z) {struct s} : option Z :=
  let all := fix all (l : list stm) (es : list (label * Z)) : option Z :=
    match l, es with
    | [s], [(Epsilon, t)] => place s (pnm t)
    | s :: l', (Epsilon, t) :: es' =>
        match place s (pnm t), all l' es' with Some v, Some v' => if v =? v' then Some v else None | _, _ => None end
    | _, _ => None
    end in
  let loop := fun s m => match place s q with
    | Some t => if t =? m then match out P m with [(Epsilon, a); (Epsilon, b)] => if pnm a =? q then Some (pnm b) else None | _ => None end else None
    | None => None
    end in
  match s with
  | Match n t => at_state n q (match out P n with [(lab, v)] => if psame [t] lab then Some (pnm v) else None | _ => None end)
  | MatchSet n _ l => at_state n q (match out P n with [(lab, v)] => if psame l lab then Some (pnm v) else None | _ => None end)
  | Call n r => at_state n q (match out P n with
      | [(RuleT q' r' _, v)] => if (q' =? start_of P (rule_num r)) && (r' =? rule_num r) then Some (pnm v) else None
      | _ => None
      end)
  | Seq a b => match place a q with Some t => place b t | None => None end
  | Switch n cases => at_state n q (
      (fix all (l : list (latest * stm)) (es : list (label * Z)) : option Z :=
        match l, es with
        | [c], [(Epsilon, t)] => place (snd c) (pnm t)
        | c :: l', (Epsilon, t) :: es' =>
            match place (snd c) (pnm t), all l' es' with Some v, Some v' => if v =? v' then Some v else None | _, _ => None end
        | _, _ => None
        end) cases (out P n))
  | IfLa n _ s => at_state n q (match out P n with
      | [(Epsilon, a); (Epsilon, b)] => match place s (pnm a) with Some v => if v =? pnm b then Some v else None | None => None end
      | _ => None
      end)
  | Pred n d l => if is_dec d n then at_state n q (all l (out P n)) else None
  | PredOpt n d s => if is_dec d n then at_state n q (match out P n with
      | [(Epsilon, a); (Epsilon, b)] => match place s (pnm a) with Some v => if v =? pnm b then Some v else None | None => None end
      | _ => None
      end) else None
  | DoLa n s m _ => if pnm n =? q then loop s m else None
  | DoPred n s m d => if (pnm n =? q) && is_dec d m then loop s m else None
  | LoopLa s m _ => loop s m
  | LoopPred s m d => if is_dec d m then loop s m else None
  end.
Lemma method_place r : match place (method r) (pnm (start_of P (rule_num r))) with Some v => stopb P v | None => false end = true.
Proof.
  assert (H : forallb (fun r => match place (method r) (pnm (start_of P (rule_num r))) with Some v => stopb P v | None => false end) rule_names = true) by (vm_compute; reflexivity).
  rewrite forallb_forall in H. apply H. destruct r; cbn; tauto.
Qed.
Lemma is_dec_ok d n : is_dec d n = true -> nth_error (a_decisions P) d = Some n.
Proof. unfold is_dec. destruct (nth_error _ d) as [m|]; [|discriminate]. intros H. apply Z.eqb_eq in H. congruence. Qed.
Lemma at_state_ok n q x v : at_state n q x = Some v -> q = n /\ x = Some v.
Proof. unfold at_state. destruct (q =? n) eqn:H; [|discriminate]. apply Z.eqb_eq in H. auto. Qed.
Lemma two_eps (es : list (label * Z)) (f : Z -> Z -> option Z) v :
  match es with [(Epsilon, a); (Epsilon, b)] => f a b | _ => None end = Some v -> exists a b, es = [(Epsilon, a); (Epsilon, b)] /\ f a b = Some v.
Proof. destruct es as [|[[] a] [|[[] b] [|]]]; try discriminate. eauto. Qed.
Lemma one_out (es : list (label * Z)) (f : label -> Z -> option Z) v :
  match es with [(l, a)] => f l a | _ => None end = Some v -> exists l a, es = [(l, a)] /\ f l a = Some v.
Proof. destruct es as [|[l a] [|]]; try discriminate. eauto. Qed.
Lemma one_rule (es : list (label * Z)) (f : Z -> Z -> Z -> Z -> option Z) v :
  match es with [(RuleT q r pr, a)] => f q r pr a | _ => None end = Some v -> exists q r pr a, es = [(RuleT q r pr, a)] /\ f q r pr a = Some v.
Proof. destruct es as [|[[] a] [|]]; try discriminate. eauto 6. Qed.
(** Alternatives, over any kind of item. *)
Definition alls {X} (g : X -> Z -> option Z) := fix all (l : list X) (es : list (label * Z)) : option Z :=
    match l, es with
    | [s], [(Epsilon, t)] => g s (pnm t)
    | s :: l', (Epsilon, t) :: es' =>
        match g s (pnm t), all l' es' with Some v, Some v' => if v =? v' then Some v else None | _, _ => None end
    | _, _ => None
    end.
Lemma alls_ok {X} (g : X -> Z -> option Z) l : forall es v, alls g l es = Some v ->
  l <> [] /\ Forall2 (fun s e => fst e = Epsilon /\ g s (pnm (snd e)) = Some v) l es.
Proof.
  induction l as [|s l IH]; intros es v H; [discriminate|]. split; [discriminate|].
  assert (Hc : l = [] /\ (exists t, es = [(Epsilon, t)] /\ g s (pnm t) = Some v) \/
    exists t es', es = (Epsilon, t) :: es' /\ g s (pnm t) = Some v /\ alls g l es' = Some v).
  { cbn [alls] in H. destruct es as [|[[] t] es]; try (destruct l; discriminate).
    assert (Hm : forall v1 v2, (if v1 =? v2 then Some v1 else None) = Some v -> v1 = v /\ v2 = v).
    { intros v1 v2. destruct (v1 =? v2) eqn:E; [|discriminate]. intros Hv. injection Hv as ->. apply Z.eqb_eq in E. auto. }
    destruct l as [|s' l]; [destruct es as [|e es]; [left; eauto|destruct (g s (pnm t)); discriminate]|].
    right. exists t, es. split; [reflexivity|]. destruct (g s (pnm t)) as [v1|]; [|discriminate]. fold (@alls X g) in H. destruct (alls g (s' :: l) es) as [v2|] eqn:E2.
    - destruct (Hm _ _ H) as [-> ->]. auto.
    - discriminate. }
  destruct Hc as [[-> (t & -> & Hg)]|(t & es' & -> & Hg & Ha)].
  - constructor; [cbn; auto|constructor].
  - constructor; [cbn; auto|]. apply IH. exact Ha.
Qed.
Lemma place_pred n d l q : place (Pred n d l) q = if is_dec d n then at_state n q (alls place l (out P n)) else None.
Proof. reflexivity. Qed.
Lemma place_switch n l q : place (Switch n l) q = at_state n q (alls (fun c => place (snd c)) l (out P n)).
Proof. reflexivity. Qed.
Lemma place_loop s q m v : match place s q with
    | Some t => if t =? m then match out P m with [(Epsilon, a); (Epsilon, b)] => if pnm a =? q then Some (pnm b) else None | _ => None end else None
    | None => None
    end = Some v -> exists a b, place s q = Some m /\ out P m = [(Epsilon, a); (Epsilon, b)] /\ pnm a = q /\ v = pnm b.
Proof.
  destruct (place s q) as [t|]; [|discriminate]. destruct (t =? m) eqn:E; [|discriminate]. apply Z.eqb_eq in E. subst t. intros H.
  apply (two_eps _ (fun a b => if pnm a =? q then Some (pnm b) else None)) in H. destruct H as (a & b & Ho & H). destruct (pnm a =? q) eqn:E; [|discriminate]. apply Z.eqb_eq in E. injection H as <-. eauto 6.
Qed.
Lemma F2_place {X} (l : list X) (es : list (label * Z)) (g : X -> Z -> option Z) (h : X -> Z -> Z -> Prop) v :
  (forall x q w, In x l -> g x q = Some w -> h x q w) -> Forall2 (fun s e => fst e = Epsilon /\ g s (pnm (snd e)) = Some v) l es ->
  Forall2 (fun s e => fst e = Epsilon /\ h s (pnm (snd e)) v) l es.
Proof.
  intros H F. induction F as [|x e l es [He Hg] _ IH]; constructor.
  - split; [exact He|]. apply H; [left; reflexivity|exact Hg].
  - apply IH. intros y q w Hin. apply H. right. exact Hin.
Qed.
(** Induction over statements, through the lists. *)
Section StmInd.
  Variable Q : stm -> Prop.
  Hypothesis HMatch : forall n t, Q (Match n t).
  Hypothesis HSet : forall n x l, Q (MatchSet n x l).
  Hypothesis HCall : forall n r, Q (Call n r).
  Hypothesis HSeq : forall a b, Q a -> Q b -> Q (Seq a b).
  Hypothesis HSwitch : forall n l, (forall c, In c l -> Q (snd c)) -> Q (Switch n l).
  Hypothesis HIf : forall n x s, Q s -> Q (IfLa n x s).
  Hypothesis HPred : forall n d l, (forall s, In s l -> Q s) -> Q (Pred n d l).
  Hypothesis HOpt : forall n d s, Q s -> Q (PredOpt n d s).
  Hypothesis HDoLa : forall n s m x, Q s -> Q (DoLa n s m x).
  Hypothesis HDoPred : forall n s m d, Q s -> Q (DoPred n s m d).
  Hypothesis HLoopLa : forall s m x, Q s -> Q (LoopLa s m x).
  Hypothesis HLoopPred : forall s m d, Q s -> Q (LoopPred s m d).
  Fixpoint stm_ind' (s : stm) : Q s :=
    match s with
    | Match n t => HMatch n t
    | MatchSet n x l => HSet n x l
    | Call n r => HCall n r
    | Seq a b => HSeq a b (stm_ind' a) (stm_ind' b)
    | Switch n l => HSwitch n l ((fix go l : forall c, In c l -> Q (snd c) :=
        match l return forall c, In c l -> Q (snd c) with
        | [] => fun c (H : In c []) => match H with end
        | c0 :: l' => fun c (H : In c (c0 :: l')) => match H with or_introl E => eq_ind c0 (fun c => Q (snd c)) (stm_ind' (snd c0)) c E | or_intror H' => go l' c H' end
        end) l)
    | IfLa n x s => HIf n x s (stm_ind' s)
    | Pred n d l => HPred n d l ((fix go l : forall c, In c l -> Q c :=
        match l return forall c, In c l -> Q c with
        | [] => fun c (H : In c []) => match H with end
        | c0 :: l' => fun c (H : In c (c0 :: l')) => match H with or_introl E => eq_ind c0 Q (stm_ind' c0) c E | or_intror H' => go l' c H' end
        end) l)
    | PredOpt n d s => HOpt n d s (stm_ind' s)
    | DoLa n s m x => HDoLa n s m x (stm_ind' s)
    | DoPred n s m d => HDoPred n s m d (stm_ind' s)
    | LoopLa s m x => HLoopLa s m x (stm_ind' s)
    | LoopPred s m d => HLoopPred s m d (stm_ind' s)
    end.
End StmInd.
Lemma place_ok s : forall q v, place s q = Some v -> placed s q v.
Proof.
  induction s as [n t|n x l|n r|a b IHa IHb|n l IH|n x s IH|n d l IH|n d s IH|n s m x IH|n s m d IH|s m x IH|s m d IH] using stm_ind'; intros q v H.
  - apply at_state_ok in H. destruct H as [-> H]. apply (one_out _ (fun lab v => if psame [t] lab then Some (pnm v) else None)) in H. destruct H as (lab & w & Ho & H).
    destruct (psame [t] lab) eqn:E; [|discriminate]. injection H as <-. eapply pl_match; eassumption.
  - apply at_state_ok in H. destruct H as [-> H]. apply (one_out _ (fun lab v => if psame l lab then Some (pnm v) else None)) in H. destruct H as (lab & w & Ho & H).
    destruct (psame l lab) eqn:E; [|discriminate]. injection H as <-. eapply pl_set; eassumption.
  - apply at_state_ok in H. destruct H as [-> H]. apply (one_rule _ (fun q' r' _ v => if (q' =? start_of P (rule_num r)) && (r' =? rule_num r) then Some (pnm v) else None)) in H.
    destruct H as (q' & r' & pr & w & Ho & H). destruct (q' =? _) eqn:E1; [|discriminate]. destruct (r' =? _) eqn:E2; [|discriminate]. apply Z.eqb_eq in E1, E2. subst. injection H as <-. eapply pl_call; eassumption.
  - cbn [place] in H. destruct (place a q) as [t|] eqn:Ha; [|discriminate]. eapply pl_seq; eauto.
  - rewrite place_switch in H. apply at_state_ok in H. destruct H as [-> H]. apply alls_ok in H. destruct H as [Hl H]. constructor; [exact Hl|].
    revert H. apply (F2_place l _ (fun c => place (snd c)) (fun c => placed (snd c))). auto.
  - apply at_state_ok in H. destruct H as [-> H]. apply (two_eps _ (fun a b => match place s (pnm a) with Some v => if v =? pnm b then Some v else None | None => None end)) in H.
    destruct H as (a & b & Ho & H). destruct (place s (pnm a)) as [w|] eqn:E; [|discriminate]. destruct (w =? pnm b) eqn:E2; [|discriminate]. apply Z.eqb_eq in E2. subst w. injection H as <-. eapply pl_if; eauto.
  - rewrite place_pred in H. destruct (is_dec d n) eqn:Ed; [|discriminate]. apply at_state_ok in H. destruct H as [-> H]. apply alls_ok in H. destruct H as [Hl H]. constructor; [exact Hl|apply is_dec_ok; exact Ed|].
    revert H. apply (F2_place l _ place placed). auto.
  - cbn [place] in H. destruct (is_dec d n) eqn:Ed; [|discriminate]. apply at_state_ok in H. destruct H as [-> H]. apply (two_eps _ (fun a b => match place s (pnm a) with Some v => if v =? pnm b then Some v else None | None => None end)) in H.
    destruct H as (a & b & Ho & H). destruct (place s (pnm a)) as [w|] eqn:E; [|discriminate]. destruct (w =? pnm b) eqn:E2; [|discriminate]. apply Z.eqb_eq in E2. subst w. injection H as <-. eapply pl_predopt; eauto using is_dec_ok.
  - cbn [place] in H. destruct (pnm n =? q) eqn:E; [|discriminate]. apply Z.eqb_eq in E. subst q. apply place_loop in H. destruct H as (a & b & Hs & Ho & Ha & ->). constructor. econstructor; eauto.
  - cbn [place] in H. destruct (pnm n =? q) eqn:E; [|discriminate]. destruct (is_dec d m) eqn:Ed; [|discriminate]. apply Z.eqb_eq in E. subst q. apply place_loop in H. destruct H as (a & b & Hs & Ho & Ha & ->). constructor. econstructor; eauto using is_dec_ok.
  - cbn [place] in H. apply place_loop in H. destruct H as (a & b & Hs & Ho & Ha & ->). econstructor; eauto.
  - cbn [place] in H. destruct (is_dec d m) eqn:Ed; [|discriminate]. apply place_loop in H. destruct H as (a & b & Hs & Ho & Ha & ->). econstructor; eauto using is_dec_ok.
Qed.
Lemma method_placed r : exists v, placed (method r) (pnm (start_of P (rule_num r))) v /\ stop_state P v.
Proof.
  pose proof (method_place r) as H. destruct (place (method r) (pnm (start_of P (rule_num r)))) as [v|] eqn:E; [|discriminate]. exists v. split; [apply place_ok; exact E|apply stopb_ok; exact H].
Qed.
Lemma frag_nm_pre e q v : pfrag e (pnm q) v -> pfrag e q v.
Proof. exact (nrm_pre P pbody psame false 8 e q v). Qed.
Lemma frag_nm_post e q v : pfrag e q v -> pfrag e q (pnm v).
Proof. exact (nrm_post P pbody psame false 8 e q v). Qed.
Lemma alts_frag (l : list ebnf) es v : l <> [] -> Forall2 (fun e d => fst d = Epsilon /\ pfrag (gof e) (snd d) v) l es -> AtnFacts.alts P pbody psame false (gof (GenParser.alts l)) es v.
Proof.
  intros Hl H. induction H as [|e [lab t] l es [He Hf] Hr IH]; [contradiction|]. cbn [fst snd] in *. subst lab. destruct l as [|e' l].
  - inversion Hr; subst. apply al_one. exact Hf.
  - cbn [GenParser.alts gof]. apply al_cons; [exact Hf|]. apply IH. discriminate.
Qed.
Lemma F2_frag {X} (f : X -> stm) (l : list X) es v : (forall x, In x l -> forall q w, placed (f x) q w -> pfrag (gof (tr (f x))) q w) ->
  Forall2 (fun x e => fst e = Epsilon /\ placed (f x) (pnm (snd e)) v) l es -> Forall2 (fun e d => fst d = Epsilon /\ pfrag (gof e) (snd d) v) (map (fun x => tr (f x)) l) es.
Proof.
  intros H F. induction F as [|x e l es [He Hp] _ IH]; cbn [map]; constructor.
  - split; [exact He|]. apply frag_nm_pre. apply H; [left; reflexivity|exact Hp].
  - apply IH. intros y Hin. apply H. right. exact Hin.
Qed.
Lemma map_ne {X Y} (f : X -> Y) l : l <> [] -> map f l <> [].
Proof. destruct l; [contradiction|discriminate]. Qed.
Lemma opt_frag e n a b : out P n = [(Epsilon, a); (Epsilon, b)] -> pfrag (gof e) (pnm a) (pnm b) -> pfrag (gof (Op e)) n (pnm b).
Proof.
  intros Ho Hf. cbn [gof]. apply f_al. rewrite Ho. apply al_cons; [apply frag_nm_pre; exact Hf|]. apply al_one. apply frag_nm_post. constructor.
Qed.
Lemma loop_frag e q m a b : out P m = [(Epsilon, a); (Epsilon, b)] -> pfrag (gof e) q m -> pnm a = q -> pfrag (gof (St e)) m (pnm b).
Proof. intros Ho Hf Ha. cbn [gof]. apply frag_nm_post. eapply f_st; [exact Ho|]. apply frag_nm_pre. rewrite Ha. exact Hf. Qed.
Lemma placed_frag s : forall q v, placed s q v -> pfrag (gof (tr s)) q v.
Proof.
  induction s as [n t|n x l|n r|a b IHa IHb|n l IH|n x s IH|n d l IH|n d s IH|n s m x IH|n s m d IH|s m x IH|s m d IH] using stm_ind'; intros q v H; inversion H; subst.
  - apply frag_nm_post. eapply f_tk; eassumption.
  - apply frag_nm_post. eapply f_tk; eassumption.
  - apply frag_nm_post. eapply f_nt; [eassumption|reflexivity|unfold pbody; rewrite rule_num_named; reflexivity].
  - cbn [tr gof]. eapply f_sq; eauto.
  - cbn [tr]. apply f_al. apply alts_frag; [apply map_ne; assumption|]. apply (F2_frag snd); [exact IH|assumption].
  - eapply opt_frag; eauto.
  - cbn [tr]. apply f_al. apply alts_frag; [apply map_ne; assumption|]. apply (F2_frag (fun s => s)); [exact IH|assumption].
  - eapply opt_frag; eauto.
  - match goal with H : placed (LoopLa _ _ _) _ _ |- _ => inversion H; subst end. cbn [tr gof]. eapply f_sq; [eauto|]. eapply loop_frag; eauto.
  - match goal with H : placed (LoopPred _ _ _) _ _ |- _ => inversion H; subst end. cbn [tr gof]. eapply f_sq; [eauto|]. eapply loop_frag; eauto.
  - cbn [tr gof]. eapply f_sq; [eauto|]. eapply loop_frag; eauto.
  - cbn [tr gof]. eapply f_sq; [eauto|]. eapply loop_frag; eauto.
Qed.
(** What is pending in front of a statement, and behind a method. *)
Lemma pend_stm s q v K st : placed s q v -> pend K v st -> pend (tr s :: K) q st.
Proof. intros H. apply pend_cons. apply placed_frag. exact H. Qed.
Lemma follow_call n r pr v : out P n = [(RuleT (start_of P (rule_num r)) (rule_num r) pr, v)] -> follow_of P n = v.
Proof. unfold follow_of. intros ->. reflexivity. Qed.
Lemma pend_ret K v f st : stop_state P v -> pend K f st -> pend K v (f :: st).
Proof. intros Hv H. apply (pd_push [] K v v); [constructor|exact Hv|exact H]. Qed.
Lemma pend_end v : stop_state P v -> pend [] v [].
Proof. intros Hv. apply (pd_base [] v v); [constructor|exact Hv]. Qed.
