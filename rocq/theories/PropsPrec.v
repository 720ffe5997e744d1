(** Properties C18, C19: operator precedence inside brackets. *)
From Coq Require Import String.
From Verif Require Import Base Regex LexRules Lexer Grammar Antlr Ast Builder Parser ModelTests LexSpec LitSpec LexThms
  GramSpec GramFacts ValueSpec ValueFacts SpellSpec BuilderFacts BuilderRules ParseSpec ParseFacts SimFacts LevelFacts SelFacts PrecFacts PrecConv EvFacts
  TreeSpec TreeFacts SitFacts LevelSpec LevelThm SubEv PropsParse.
Local Open Scope Z_scope.

(** The child [c] of [m] is the tree of a whole level: [m] is a parenthesised group, or a segment that is
    not a literal, empty brackets or a single comparison. *)
Definition level_of (m c : qnode) : Prop :=
  q_children m = [c] /\
  (q_class m = CExpressionGroup \/ q_class m = CQuerySegment /\ q_class c <> CExpression /\ q_class c <> CExpressionWildcard).
Definition brackets_of (m : qnode) : ttype * ttype :=
  if class_eqb (q_class m) CExpressionGroup then (L_PAREN, R_PAREN) else (L_SQUARE_BRACKET, R_SQUARE_BRACKET).

Lemma tok_ok_sub q pre ts : tokens q = pre ++ ts -> Forall tok_ok ts.
Proof. intros H. pose proof (tokens_ok q) as HF. rewrite H in HF. apply Forall_app in HF. apply HF. Qed.
Lemma conds_sub V P q n pre ts : env_ok V -> parse V P q = Ok n -> tokens q = pre ++ ts -> conds (e_penv V) ts.
Proof.
  intros HV Hp H. destruct (parse_ok_inv V P q n HV Hp) as (m & [_ Ha] & _). apply texts_ok_conds in Ha. rewrite H in Ha. apply conds_weaken_app in Ha. apply Ha.
Qed.
Lemma drop_eof q pre ts c post : tokens q = pre ++ ts ++ c :: post -> t_type c <> EOF -> exists post', lx_tokens (lexemes q) = pre ++ ts ++ c :: post'.
Proof.
  intros H Hc. rewrite tokens_split in H. destruct post as [|x post] using rev_ind.
  - exfalso. rewrite app_assoc in H. apply app_inj_tail in H. destruct H as [_ H]. subst c. apply Hc. reflexivity.
  - exists post. replace (pre ++ ts ++ c :: post ++ [x]) with ((pre ++ ts ++ c :: post) ++ [x]) in H by (rewrite <- !app_assoc; reflexivity).
    apply app_inj_tail in H. apply H.
Qed.

Lemma level_main V P q n c0 l c K t kc R pre : env_ok V -> parse V P q = Ok n -> (c = R_PAREN \/ c = R_SQUARE_BRACKET) ->
  tokens q = pre ++ l :: leaves t ++ kc :: R -> t_type kc = c -> viable K (types R) -> stack_ok K = true ->
  selects E5 (Tk [c] :: K) (leaves t ++ kc :: R) [t] (kc :: R) -> ev (e_penv V) (qp_cfg P) t = Some c0 ->
  exists te post, lx_tokens (lexemes q) = pre ++ l :: te ++ kc :: post /\ sp_expr (e_penv V) (qp_cfg P) te c0 /\
    (textbook (e_penv V) (qp_cfg P) te c0 <-> forall i, ~ deviates (shape te) i).
Proof.
  intros HV Hp Hc Htq Hkc HKv HKo Hs Hev. exists (leaves t).
  assert (Hx : tokens q = (pre ++ [l]) ++ leaves t ++ kc :: R) by (rewrite Htq, <- app_assoc; reflexivity).
  pose proof (tok_ok_sub q _ _ Hx) as Htk. apply Forall_app in Htk. destruct Htk as [Htk _].
  pose proof (conds_sub V P q n _ _ HV Hp Hx) as Hcd. apply conds_weaken_app in Hcd. destruct Hcd as [Hcd _].
  assert (Hne : t_type kc <> EOF) by (rewrite Hkc; destruct Hc; subst; discriminate).
  destruct (drop_eof q (pre ++ [l]) (leaves t) kc R Hx Hne) as (post & Hpost). exists post. split; [rewrite Hpost, <- app_assoc; reflexivity|].
  pose proof (sel_drv _ _ _ _ _ Hs) as Hd. pose proof (op_E5 _ Hd) as (t1 & Heq & Hop). injection Heq as <-.
  assert (Hr : rooted t) by (destruct t; [destruct Hop|]; pose proof (derives_rooted _ _ Hd) as HF; inversion HF; subst; assumption).
  split.
  - destruct t as [k|r ch]; [destruct Hop|]. destruct (ev_sound (e_penv V) (qp_cfg P) r ch) as (n' & Hn' & Hsp & _); [split; auto|exact Hop|]. replace c0 with n' by congruence. exact Hsp.
  - eapply (level_exact (e_penv V) (qp_cfg P) c K kc R); eassumption.
Qed.
(** C19. *)
Theorem C19_exact : forall V P q n m c, env_ok V -> parse V P q = Ok n -> subnode m n -> level_of m c ->
  exists pre l te r post c0, lx_tokens (lexemes q) = pre ++ l :: te ++ r :: post /\
    (t_type l, t_type r) = brackets_of m /\
    c = with_locs (enableSourceLocations (qp_cfg P)) c0 /\ sp_expr (e_penv V) (qp_cfg P) te c0 /\
    (textbook (e_penv V) (qp_cfg P) te c0 <-> forall i, ~ deviates (shape te) i).
Proof.
  intros V P q n m c HV Hp Hm [Hch Hcl]. destruct (parse_sub V P q n m HV Hp Hm) as (r & ch & m0 & K & pre & ts & rest & -> & Hev & Hmk & (tq & Htq & Hsub) & Hts & Hsel & HKv & HKo).
  rewrite with_locs_children in Hch. destruct (q_children m0) as [|c0 [|c1 cs]] eqn:Hc0; try discriminate Hch. cbn in Hch. injection Hch as <-. unfold brackets_of. rewrite !with_locs_class in *.
  destruct Hcl as [Hcl|(Hcl & Hc1 & Hc2)].
  - (* group *)
    rewrite Hcl. cbn [class_eqb class_eq_dec]. 
    assert (r = expression_group) as -> by (unfold q_class in Hcl; destruct (q_payload m0); try discriminate Hcl; destruct r; try discriminate Hmk; reflexivity).
    apply sel_nt in Hsel. destruct Hsel as (ch' & Heq & Hsel). injection Heq as <-. cbn [body] in Hsel.
    apply sel_sq in Hsel. destruct Hsel as (x & y & r1 & -> & H1 & H2). apply sel_tk in H1. destruct H1 as (l & -> & -> & [Hl|[]]).
    apply sel_sq in H2. destruct H2 as (x2 & y2 & r2 & -> & H2 & H3). apply sel_tk in H3. destruct H3 as (kc & -> & -> & [Hk|[]]).
    destruct (op_E5 _ (sel_drv _ _ _ _ _ H2)) as (t & -> & Hop). pose proof (sel_eq _ _ _ _ _ H2) as E2. cbn in E2. rewrite app_nil_r in E2. subst r1.
    rewrite ev_eq in Hev. cbn [ev_node app] in Hev. rewrite evs_leaf, evs_op in Hev by exact Hop. destruct (ev _ _ t) as [c0'|] eqn:Hc; [|discriminate]. cbn [evs] in Hev. injection Hev as <-. cbn in Hc0. injection Hc0 as ->.
    destruct (level_main V P q n c0 l R_PAREN K t kc rest pre HV Hp ltac:(auto) Hts (eq_sym Hk) HKv HKo H2 Hc) as (te & post & A & B & D).
    exists pre, l, te, kc, post, c0. rewrite <- Hl, <- Hk. auto.
  - (* segment *)
    rewrite Hcl. cbn [class_eqb class_eq_dec].
    assert (r = query_simple) as -> by (unfold q_class in Hcl; destruct (q_payload m0); try discriminate Hcl; destruct r; try discriminate Hmk; reflexivity).
    apply sel_nt in Hsel. destruct Hsel as (ch' & Heq & Hsel). injection Heq as <-. cbn [body] in Hsel.
    apply sel_sq in Hsel. destruct Hsel as (x & y & r1 & -> & H1 & H2).
    assert (HK1 : viable (Op (NT quantifier) :: K) (types r1)) by (eapply selects_viable; eassumption).
    assert (Hy : evs (e_penv V) (qp_cfg P) y = Some []).
    { pose proof (sel_drv _ _ _ _ _ H2) as Hd. inversion Hd as [| | | | |?|? ? Hd'| | |]; subst; [reflexivity|]. destruct (one_node _ _ Hd') as (cq & ->). reflexivity. }
    rewrite ev_eq in Hev. cbn [ev_node] in Hev.
    assert (Hevx : exists t, x = [t] /\ ev (e_penv V) (qp_cfg P) t = Some c0 /\ (exists r' ch', t = Node r' ch' /\ valueless r' = false)).
    { assert (Ht : exists t, x = [t] /\ (exists r' ch', t = Node r' ch' /\ valueless r' = false)).
      { pose proof (sel_drv _ _ _ _ _ H1) as Hd. inversion Hd as [| | |? ? ? Hd'|? ? ? Hd'| | | | |]; subst; destruct (one_node _ _ Hd') as (cq & ->); eexists; split; try reflexivity; eauto. }
      destruct Ht as (t & -> & r' & ch' & -> & Hv). exists (Node r' ch'). split; [reflexivity|]. split; [|eauto].
      change (evs (e_penv V) (qp_cfg P) ([Node r' ch'] ++ y)) with (if valueless r' then evs (e_penv V) (qp_cfg P) y else match ev (e_penv V) (qp_cfg P) (Node r' ch'), evs (e_penv V) (qp_cfg P) y with Some n, Some ns => Some (n :: ns) | _, _ => None end) in Hev.
      rewrite Hv, Hy in Hev. destruct (ev _ _ (Node r' ch')) as [c0'|]; [|discriminate]. destruct (repetition _ _) as [[mn mx]|]; [|discriminate]. injection Hev as <-. cbn in Hc0. congruence. }
    destruct Hevx as (t & -> & Hevt & _). apply sel_al in H1. destruct H1 as [H1|[_ H1]]; apply sel_nt in H1; destruct H1 as (chs & Heq & Hsel); injection Heq as ->.
    { exfalso. rewrite ev_eq in Hevt. cbn [ev_node] in Hevt. destruct (ev_regexp _ _ chs) as [[v fl]|]; [|discriminate]. injection Hevt as <-. apply Hc1. reflexivity. }
    cbn [body] in Hsel. apply sel_sq in Hsel. destruct Hsel as (x & y2 & r2 & -> & H1 & H3). apply sel_tk in H1. destruct H1 as (l & -> & -> & [Hl|[]]).
    apply sel_sq in H3. destruct H3 as (x3 & y3 & r3 & -> & H3 & H4). apply sel_tk in H4. destruct H4 as (kc & -> & -> & [Hk|[]]).
    inversion H3 as [| | | | |? ? ? ? ? _ H5|? ? ? Hno| | |]; subst.
    + apply sel_nt in H5. destruct H5 as (che & -> & H5). cbn [body] in H5. destruct (op_E5 _ (sel_drv _ _ _ _ _ H5)) as (t & -> & Hop).
      pose proof (sel_eq _ _ _ _ _ H5) as E2. cbn in E2. rewrite app_nil_r in E2. subst r2.
      rewrite ev_eq in Hevt. cbn [ev_node app List.length Nat.eqb] in Hevt.
      change (evs (e_penv V) (qp_cfg P) [Leaf l; Node expression [t]; Leaf kc]) with (match ev (e_penv V) (qp_cfg P) (Node expression [t]) with Some n => Some [n] | _ => None end) in Hevt.
      rewrite ev_eq in Hevt. cbn [ev_node] in Hevt. rewrite evs_op in Hevt by exact Hop. destruct (ev _ _ t) as [c0'|] eqn:Hc; [|discriminate]. cbn [evs] in Hevt. injection Hevt as ->.
      destruct (level_main V P q n c0 l R_SQUARE_BRACKET (Op (NT quantifier) :: K) t kc r1 pre HV Hp ltac:(auto) Hts (eq_sym Hk) HK1 HKo H5 Hc) as (te & post & A & B & D).
      exists pre, l, te, kc, post, c0. rewrite <- Hl, <- Hk. auto.
    + exfalso. rewrite ev_eq in Hevt. cbn in Hevt. injection Hevt as <-. apply Hc2. reflexivity.
Qed.

(** In particular: levels with at most one [|], and levels without negated factors. *)
Lemma one_bar_safe jss : (List.length jss <= 2)%nat -> forall i, ~ deviates jss i.
Proof.
  intros Hl i (Hi & js & Hn & [(_ & [H|H])|(_ & j & js' & Hij & Hj & _ & [H|H])]); try lia.
Qed.
Lemma positive_safe jss : Forall (Forall (eq 0%nat)) jss -> forall i, ~ deviates jss i.
Proof.
  intros HF i (Hi & js & Hn & H). rewrite Forall_forall in HF. specialize (HF js (nth_error_In _ _ Hn)). rewrite Forall_forall in HF.
  destruct H as [((p & f & H) & _)|((f & ->) & _)].
  - specialize (HF _ (nth_error_In _ _ H)). discriminate.
  - specialize (HF _ (or_introl eq_refl)). discriminate.
Qed.
Theorem C19_simple_levels : forall V P q n m c, env_ok V -> parse V P q = Ok n -> subnode m n -> level_of m c ->
  exists pre l te r post c0, lx_tokens (lexemes q) = pre ++ l :: te ++ r :: post /\
    (t_type l, t_type r) = brackets_of m /\
    c = with_locs (enableSourceLocations (qp_cfg P)) c0 /\
    ((List.length (parts OR te) <= 2)%nat \/ Forall (Forall (eq 0%nat)) (shape te) -> textbook (e_penv V) (qp_cfg P) te c0).
Proof.
  intros V P q n m c HV Hp Hm Hl. destruct (C19_exact V P q n m c HV Hp Hm Hl) as (pre & l & te & r & post & c0 & A & B & D & _ & F).
  exists pre, l, te, r, post, c0. split; [exact A|]. split; [exact B|]. split; [exact D|]. intros [H|H]; apply F.
  - apply one_bar_safe. unfold shape. rewrite map_length. exact H.
  - apply positive_safe. exact H.
Qed.

(** ** C18 *)
(** Whatever the query: operands of a conjunction are not conjunctions, operands of a
    disjunction are not disjunctions, and the first operand of a conjunction is no disjunction;
    both operators have at least two operands, a negation exactly one. *)
Theorem C18_always : forall V P q n m, env_ok V -> parse V P q = Ok n -> subnode m n ->
  (q_class m = CExpressionAnd -> (2 <= List.length (q_children m))%nat /\
     (forall c, In c (q_children m) -> q_class c <> CExpressionAnd) /\
     (forall c, hd_error (q_children m) = Some c -> q_class c <> CExpressionOr)) /\
  (q_class m = CExpressionOr -> (2 <= List.length (q_children m))%nat /\
     (forall c, In c (q_children m) -> q_class c <> CExpressionOr)) /\
  (q_class m = CExpressionNot -> List.length (q_children m) = 1%nat).
Proof.
  intros V P q n m HV Hp Hm. destruct (parse_sits V P q n m HV Hp Hm) as (pre & tm & post & m0 & Hts & Hs & ->).
  rewrite with_locs_class, with_locs_children, map_length.
  assert (Hcl : forall k, q_class m0 = k -> In k [CExpressionAnd; CExpressionOr; CExpressionNot] -> exists ts, sp_expr (e_penv V) (qp_cfg P) ts m0).
  { intros k Hk Hin. destruct Hs as [pre p ts s post n0 H|pre ts post v fl H|pre l r post|pre ts post n0 H|pre ts post n0 H|pre w k0 sc|ts n0 w k0 sc]; eauto;
      try (exfalso; subst k; cbn in Hin; intuition discriminate).
    - exfalso. destruct H; subst k; cbn in Hin; intuition discriminate.
    - exfalso. destruct H; subst k; cbn in Hin; intuition discriminate. }
  assert (Hp1 : forall x, q_payload x <> PAnd -> q_class x <> CExpressionAnd) by (intros x H Hc; apply H; unfold q_class in Hc; destruct (q_payload x); try discriminate; reflexivity).
  assert (Hp2 : forall x, q_payload x <> POr -> q_class x <> CExpressionOr) by (intros x H Hc; apply H; unfold q_class in Hc; destruct (q_payload x); try discriminate; reflexivity).
  split; [|split]; intros Hc; destruct (Hcl _ Hc ltac:(cbn; tauto)) as (ts & Hsp); inversion Hsp; subst; try discriminate Hc; cbn [q_children].
  - split; [assumption|]. split.
    + intros c Hin. apply in_map_iff in Hin. destruct Hin as (x & <- & Hin). rewrite with_locs_class. auto.
    + intros c Hin. destruct ns as [|x ns]; [discriminate|]. cbn in Hin. injection Hin as <-. rewrite with_locs_class. auto.
  - split; [assumption|]. intros c Hin. apply in_map_iff in Hin. destruct Hin as (x & <- & Hin). rewrite with_locs_class. auto.
  - reflexivity.
Qed.

(** The tree of a query, for examples. *)
Definition tree_of (q : string) : option qnode :=
  match parse some_env (new_parser (default_cfg false)) (u q) with Ok n => Some n | Raise _ => None end.
(** The operator skeleton of a tree. *)
Inductive skel := SAnd (l : list skel) | SOr (l : list skel) | SNot (l : list skel) | SGroup (l : list skel) | SAtom (i : pystr) | SOther (l : list skel).
Fixpoint skel_of (n : qnode) : skel :=
  match n with
  | QN p _ ch =>
      let l := map skel_of ch in
      match p with
      | PAnd => SAnd l | POr => SOr l | PNot => SNot l | PExprGroup => SGroup l | PExpr _ i _ _ _ => SAtom i | _ => SOther l
      end
  end.

(** C18.  The documented precedence is not respected: here a conjunction has a bare
    disjunction as operand ... *)
Theorem C18_refuted_and : option_map skel_of (tree_of "[a='x' & !b='y' | c='z' | d='w']") =
  Some (SOther [SOr [SAnd [SAtom (u "a"); SOr [SNot [SAtom (u "b")]; SAtom (u "c")]]; SAtom (u "d")]]).
Proof. vm_compute. reflexivity. Qed.
(** ... and here a negation. *)
Theorem C18_refuted_not : option_map skel_of (tree_of "[!a='x' | b='y' & c='z' | d='w']") =
  Some (SOther [SOr [SAnd [SNot [SOr [SAtom (u "a"); SAtom (u "b")]]; SAtom (u "c")]; SAtom (u "d")]]).
Proof. vm_compute. reflexivity. Qed.
(** Both levels deviate in the sense of C19; these do not: *)
Definition inner (q : string) : list token := removelast (tl (lx_tokens (lexemes (u q)))).
Example C18_deviates_1 : deviates (shape (inner "[a='x' & !b='y' | c='z' | d='w']")) 0.
Proof.
  replace (shape _) with [[0; 1]; [0]; [0]]%nat by (vm_compute; reflexivity). split; [cbn; lia|]. eexists. split; [reflexivity|].
  left. split; [exists 0%nat, 0%nat; reflexivity|cbn; lia].
Qed.
Example C18_deviates_2 : deviates (shape (inner "[!a='x' | b='y' & c='z' | d='w']")) 0.
Proof.
  replace (shape _) with [[1]; [0; 0]; [0]]%nat by (vm_compute; reflexivity). split; [cbn; lia|]. eexists. split; [reflexivity|].
  right. split; [exists 0%nat; reflexivity|]. exists 1%nat, [0; 0]%nat. cbn. split; [lia|]. split; [reflexivity|]. lia.
Qed.
Example C19_witness : shape (inner "[!(a='x' | b='y') & !!c='z' | d='u' & e='v']") = [[1; 2]; [0; 0]]%nat /\
  option_map skel_of (tree_of "[!(a='x' | b='y') & !!c='z' | d='u' & e='v']") =
  Some (SOther [SOr [SAnd [SNot [SGroup [SOr [SAtom (u "a"); SAtom (u "b")]]]; SNot [SNot [SAtom (u "c")]]]; SAnd [SAtom (u "d"); SAtom (u "e")]]]).
Proof. vm_compute. split; reflexivity. Qed.
Example C19_witness_level : exists n m c, tree_of "[a='x' & b='y']" = Some n /\ subnode m n /\ level_of m c.
Proof.
  destruct (tree_of "[a='x' & b='y']") as [n|] eqn:H; vm_compute in H; [|discriminate]. injection H as <-.
  eexists _, _, _. split; [reflexivity|]. split; [apply sub_here|]. split; [reflexivity|]. right. repeat split; discriminate.
Qed.
