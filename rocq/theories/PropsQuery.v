(** Property C16: the structure of a query outside brackets. *)
From Coq Require Import String.
From Verif Require Import Base Regex LexRules Lexer Grammar Antlr Ast Builder Parser ModelTests LexSpec LitSpec LexThms
  GramSpec GramFacts ValueSpec ValueFacts SpellSpec BuilderFacts BuilderRules ParseSpec ParseFacts SimFacts LevelFacts SelFacts PrecFacts PrecConv EvFacts
  TreeSpec TreeFacts SitFacts LevelSpec LevelThm SubEv PropsParse PropsPrec QuerySpec QueryThm.
Local Open Scope Z_scope.

(** C16.  The whole query: its tokens (without a within part [within k]) are canonical. *)
Theorem C16_query : forall V P q n, env_ok V -> parse V P q = Ok n ->
  exists ts n0, canon_main (e_penv V) (qp_cfg P) ts n0 /\
    (lx_tokens (lexemes q) = ts /\ n = with_locs (enableSourceLocations (qp_cfg P)) n0 \/
     exists w k sc, lx_tokens (lexemes q) = ts ++ [w; k] /\ is_tok WITHIN w /\ is_tok SIMPLE_WITHIN_SCOPE k /\ scope_word (t_text k) sc /\
       n = with_locs (enableSourceLocations (qp_cfg P)) (QN PWithWithin (span (ts ++ [w; k])) [n0; QN (PSimpleWithin sc) (span [k]) []])).
Proof.
  intros V P q n HV Hp. destruct (parse_ev V P q n HV Hp) as (t & m & Ht & Hpt & Hl & Hev & Hsp & ->).
  destruct (parse_ok_inv V P q _ HV Hp) as (_ & [_ Ha] & _). apply texts_ok_conds in Ha.
  assert (Hc : conforms (tokens q)) by (exists t; auto).
  destruct (antlr_query_selects _ Hc) as (t' & Ht' & Hsel & _). rewrite Ht in Ht'. injection Ht' as <-.
  apply sel_nt in Hsel. destruct Hsel as (ch & Heq & Hsel). injection Heq as ->. cbn [body] in Hsel.
  apply sel_sq in Hsel. destruct Hsel as (x & y & r1 & -> & H1 & H2). pose proof (selects_viable _ _ _ _ _ H2 viable_nil) as HK.
  apply sel_nt in H1. destruct H1 as (cm & -> & H1). 
  assert (Hso : sound (e_penv V) (Node query ([Node main_query cm] ++ y))) by (split; [exists query; exact Hpt|rewrite Hl; split; [apply tokens_ok|exact Ha]]).
  destruct (sound_children _ _ _ Hso) as [_ Hch]. cbn [app] in Hch. inversion Hch as [|? ? Hsm Hsy]; subst. destruct (sound_children _ _ _ Hsm) as [_ Hcm].
  destruct (main_sel (e_penv V) (qp_cfg P) _ _ _ _ H1 HK Hcm) as (t1 & n1 & -> & Hn1 & Hcan).
  assert (Hm : ev (e_penv V) (qp_cfg P) (Node main_query [t1]) = Some n1).
  { rewrite ev_eq. cbn [ev_node]. destruct t1 as [k|r1' c1]; [discriminate Hn1|]. assert (Hv : valueless r1' = false) by (rewrite ev_eq in Hn1; destruct r1'; try discriminate Hn1; reflexivity).
    change (evs (e_penv V) (qp_cfg P) [Node r1' c1]) with (if valueless r1' then Some [] else match ev (e_penv V) (qp_cfg P) (Node r1' c1) with Some n => Some [n] | _ => None end). rewrite Hv, Hn1. reflexivity. }
  exists (leaves t1), n1. split; [exact Hcan|]. cbn [leaves app flat_map] in Hl. rewrite app_nil_r in Hl.
  apply sel_sq in H2. destruct H2 as (z & e & r2 & -> & H2 & H3). apply sel_tk in H3. destruct H3 as (ek & -> & -> & [He|[]]).
  inversion H2 as [| | | | |? ? ? ? ? _ H4|? ? ? Hno| | |]; subst.
  - right. apply sel_sq in H4. destruct H4 as (a & b & r3 & -> & H4 & H5). apply sel_tk in H4. destruct H4 as (w & -> & -> & [Hw|[]]).
    apply sel_nt in H5. destruct H5 as (cw & -> & H5). cbn [app] in *.
    inversion Hsy as [|? ? _ Hsy2]; subst. inversion Hsy2 as [|? ? Hsw _]; subst.
    destruct (ev_query_rule (e_penv V) (qp_cfg P) within_part cw Hsw eq_refl) as (nw & Hnw & Hyw & Hspec). cbn [spec] in Hspec.
    assert (Hcw : conds (e_penv V) (leaves (Node within_part cw))) by apply Hsw.
    destruct Hspec as [_ [(mw & (k & sc & Hlk & Hk & Hsc & Hmw) & _ & Hyw')|[Hno _]]]; [|contradiction].
    pose proof (yields_det _ _ _ _ _ Hyw Hyw') as ->. subst mw. 
    exists w, k, sc. assert (Htok : tokens q = leaves t1 ++ [w; k; ek]) by (rewrite <- Hl; cbn [flat_map leaves]; change (flat_map leaves cw) with (leaves (Node within_part cw)); rewrite Hlk; reflexivity).
    assert (Hlx : lx_tokens (lexemes q) = leaves t1 ++ [w; k]).
    { rewrite tokens_split in Htok. change [w; k; ek] with ([w; k] ++ [ek]) in Htok. rewrite app_assoc in Htok. apply app_inj_tail in Htok. apply Htok. }
    split; [exact Hlx|]. split; [symmetry; exact Hw|]. split; [exact Hk|]. split; [exact Hsc|]. f_equal.
    rewrite ev_eq in Hev. cbn [ev_node app] in Hev.
    change (evs (e_penv V) (qp_cfg P) (Node main_query [t1] :: Leaf w :: Node within_part cw :: [Leaf ek])) with
      (match ev (e_penv V) (qp_cfg P) (Node main_query [t1]), match ev (e_penv V) (qp_cfg P) (Node within_part cw) with Some n => Some [n] | _ => None end with Some n, Some ns => Some (n :: ns) | _, _ => None end) in Hev.
    rewrite Hm, Hnw in Hev. cbn in Hev. injection Hev as Hev. inversion Hsp as [ts n0 e0 Hmn He0 Hts Hnm|ts n0 w0 k0 sc0 e0 Hmn Hw0 Hk0 Hsc0 He0 Hts Hn0].
    + exfalso. try rewrite Hnm in Hmn; rewrite <- Hev in Hmn. inversion Hmn as [? ? Hi|? ? Hi]; inversion Hi.
    + rewrite Htok in Hts. replace (ts ++ [w0; k0; e0]) with ((((ts ++ [w0]) ++ [k0]) ++ [e0])) in Hts by (rewrite <- !app_assoc; reflexivity).
      replace (leaves t1 ++ [w; k; ek]) with (((leaves t1 ++ [w]) ++ [k]) ++ [ek]) in Hts by (rewrite <- !app_assoc; reflexivity).
      apply app_inj_tail in Hts. destruct Hts as [Hts _]. apply app_inj_tail in Hts. destruct Hts as [Hts ->]. apply app_inj_tail in Hts. destruct Hts as [-> ->].
      rewrite <- Hn0 in Hev. injection Hev as _ -> Hsc'. rewrite Hsc'; reflexivity.
  - left. cbn [app] in *. assert (Htok : tokens q = leaves t1 ++ [ek]) by (rewrite <- Hl; reflexivity). split.
    + rewrite tokens_split in Htok. apply app_inj_tail in Htok. apply Htok.
    + f_equal. rewrite ev_eq in Hev. cbn [ev_node] in Hev.
      change (evs (e_penv V) (qp_cfg P) (Node main_query [t1] :: [Leaf ek])) with (match ev (e_penv V) (qp_cfg P) (Node main_query [t1]) with Some n => Some [n] | _ => None end) in Hev.
      rewrite Hm in Hev. cbn in Hev. congruence.
Qed.

(** Every parenthesised group: what stands between its parentheses is canonical. *)
Theorem C16_groups : forall V P q n m, env_ok V -> parse V P q = Ok n -> subnode m n -> q_class m = CQueryGroup ->
  exists pre l tc r post c, lx_tokens (lexemes q) = pre ++ l :: tc ++ r :: post /\ is_tok L_PAREN l /\ is_tok R_PAREN r /\
    (enableSourceLocations (qp_cfg P) = true -> exists stop, q_loc m = Some (mkLoc (t_start l) stop)) /\
    q_children m = [with_locs (enableSourceLocations (qp_cfg P)) c] /\ canon_content (e_penv V) (qp_cfg P) tc c.
Proof.
  intros V P q n m HV Hp Hm Hcl. destruct (parse_sub V P q n m HV Hp Hm) as (r & ch & m0 & K & pre & ts & rest & -> & Hev & Hmk & (tq & Htq & Hsub) & Hts & Hsel & HKv & HKo).
  rewrite with_locs_class in Hcl. rewrite with_locs_children.
  assert (r = query_group) as -> by (unfold q_class in Hcl; destruct (q_payload m0); try discriminate Hcl; destruct r; try discriminate Hmk; reflexivity).
  assert (Hso : sound (e_penv V) (Node query_group ch)).
  { pose proof (sel_drv _ _ _ _ _ Hsel) as Hd. pose proof (sel_eq _ _ _ _ _ Hsel) as He. cbn [flat_map] in He. rewrite app_nil_r in He. subst ts.
    pose proof (tok_ok_sub q _ _ Hts) as Hk. apply Forall_app in Hk. pose proof (conds_sub V P q n _ _ HV Hp Hts) as Hcd. apply conds_weaken_app in Hcd.
    split; [exists query_group; exact Hd|]. split; [apply Hk|apply Hcd]. }
  destruct (sound_children _ _ _ Hso) as [_ Hch].
  apply sel_nt in Hsel. destruct Hsel as (ch' & Heq & Hsel). injection Heq as <-. cbn [body] in Hsel.
  apply sel_sq in Hsel. destruct Hsel as (x & y & r1 & -> & H1 & H2). apply sel_tk in H1. destruct H1 as (l & -> & -> & [Hl|[]]).
  apply sel_sq in H2. destruct H2 as (x2 & y2 & r2 & -> & H2 & H3). pose proof (selects_viable _ _ _ _ _ H3 HKv) as HK3.
  cbn [app] in Hch. inversion Hch as [|? ? _ Hch2]; subst. apply Forall_app in Hch2. destruct Hch2 as [Hc2 _].
  destruct (content_sel (e_penv V) (qp_cfg P) _ _ _ _ H2 HK3 Hc2) as (t & c & -> & Hc & Hcan). pose proof (sel_eq _ _ _ _ _ H2) as E2. cbn in E2. rewrite app_nil_r in E2. subst r1.
  apply sel_sq in H3. destruct H3 as (x3 & y3 & r3 & -> & H3 & H4). apply sel_tk in H3. destruct H3 as (kc & -> & -> & [Hk|[]]).
  assert (Hx : tokens q = (pre ++ [l]) ++ leaves t ++ kc :: r3) by (rewrite Hts, <- app_assoc; reflexivity).
  destruct (drop_eof q (pre ++ [l]) (leaves t) kc r3 Hx) as (post & Hpost); [rewrite <- Hk; discriminate|].
  exists pre, l, (leaves t), kc, post, c. split; [rewrite Hpost, <- app_assoc; reflexivity|]. split; [symmetry; exact Hl|]. split; [symmetry; exact Hk|].
  split; [|split; [|exact Hcan]].
  - intros ->. destruct (ev_item (e_penv V) (qp_cfg P) query_group _ Hso ltac:(auto)) as (n' & Hn' & Hi & _). rewrite Hev in Hn'. injection Hn' as <-.
    destruct m0 as [p l0 cs]. cbn [with_locs q_loc]. pose proof (stands_loc _ _ _ _ (st_item _ _ _ _ Hi)) as Hloc. cbn [q_loc] in Hloc. subst l0. eexists. reflexivity.
  - assert (Hy : evs (e_penv V) (qp_cfg P) y3 = Some []).
    { pose proof (sel_drv _ _ _ _ _ H4) as Hd. inversion Hd as [| | | | |?|? ? Hd'| | |]; subst; [reflexivity|]. destruct (one_node _ _ Hd') as (cq & ->). reflexivity. }
    rewrite ev_eq in Hev. cbn [ev_node app] in Hev. destruct t as [k|rt ct]; [discriminate Hc|].
    assert (Hv : valueless rt = false) by (rewrite ev_eq in Hc; destruct rt; try discriminate Hc; reflexivity).
    change (evs (e_penv V) (qp_cfg P) (Leaf l :: Node rt ct :: Leaf kc :: y3)) with
      (if valueless rt then evs (e_penv V) (qp_cfg P) y3 else match ev (e_penv V) (qp_cfg P) (Node rt ct), evs (e_penv V) (qp_cfg P) y3 with Some n, Some ns => Some (n :: ns) | _, _ => None end) in Hev.
    rewrite Hv, Hc, Hy in Hev. destruct (repetition _ _) as [[mn mx]|]; [|discriminate]. injection Hev as <-. reflexivity.
Qed.

Definition class_tree (q : string) : option (list class) :=
  option_map (fix go (n : qnode) : list class := match n with QN p l ch => q_class n :: flat_map go ch end) (tree_of q).
(** A bare group as operand is wrapped in a sequence, a bare segment is not; one item between
    parentheses is a sequence of one. *)
Example C16_witness : class_tree "'a' | ('b') | 'c' [] within s" =
  Some [CQueryWithWithin; CQueryDisjunction; CQuerySegment; CExpression; CQuerySequence; CQueryGroup; CQuerySequence; CQuerySegment; CExpression;
        CQuerySequence; CQuerySegment; CExpression; CQuerySegment; CExpressionWildcard; CSimpleWithin].
Proof. vm_compute. reflexivity. Qed.
Example C16_witness_single : class_tree "('a')" = Some [CQueryGroup; CQuerySequence; CQuerySegment; CExpression].
Proof. vm_compute. reflexivity. Qed.
