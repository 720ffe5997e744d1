(** Properties C09-C15: what the nodes of a returned tree have to do with the query text. *)
From Coq Require Import String.
From Verif Require Import Base Regex LexRules Lexer Grammar Antlr Ast Builder Parser ModelTests LexSpec LitSpec LexRuleFacts LexThms LexWs LexSub
  GramSpec GramFacts ValueSpec ValueFacts SpellSpec BuilderFacts BuilderRules ParseSpec ParseFacts EvFacts TreeSpec TreeFacts SitFacts PropsParse.
Local Open Scope Z_scope.

(** ** C09, C10: repetition *)

(** The bounds of a segment or group. *)
Definition bounds (n : qnode) : option (Z * Z) :=
  match q_payload n with PSegment mn mx | PQGroup mn mx => Some (mn, mx) | _ => None end.
Definition with_bounds (n : qnode) (mn mx : Z) : qnode :=
  match n with
  | QN (PSegment _ _) l ch => QN (PSegment mn mx) l ch
  | QN (PQGroup _ _) l ch => QN (PQGroup mn mx) l ch
  | _ => n
  end.

Lemma bounds_with_locs b n : bounds (with_locs b n) = bounds n.
Proof. unfold bounds. rewrite with_locs_payload. reflexivity. Qed.

Lemma expr_no_bounds E C ts n : sp_expr E C ts n -> bounds n = None.
Proof. destruct 1; reflexivity. Qed.

(** C09.  Every segment or group of a returned tree is an item [core] without
    quantifier, directly followed by the tokens [tq] of a quantifier that stands for
    its bounds (or by no quantifier, bounds 1 and 1). *)
Theorem C09_quantifiers : forall V P q n m mn mx, env_ok V -> parse V P q = Ok n -> subnode m n ->
  bounds m = Some (mn, mx) ->
  exists pre core tq post m0, lx_tokens (lexemes q) = pre ++ (core ++ tq) ++ post /\
    sp_item (e_penv V) (qp_cfg P) core m0 /\ bounds m0 = Some (1, 1) /\ q_class m0 = q_class m /\
    quantified tq mn mx /\ next_not quantifier_start post /\
    (enableSourceLocations (qp_cfg P) = true -> q_loc m = span (core ++ tq)).
Proof.
  intros V P q n m mn mx HV Hp Hm Hb. destruct (parse_sits V P q n m HV Hp Hm) as (pre & tm & post & m0 & Hts & Hs & ->).
  rewrite bounds_with_locs in Hb. rewrite with_locs_class.
  assert (Hnn : forall l, next_not (FWD_SLASH :: l) post -> next_not l post).
  { intros l H s r Hx Hin. apply (H s r Hx). right. exact Hin. }
  assert (Hi : sp_item (e_penv V) (qp_cfg P) tm m0 /\ next_not quantifier_start post).
  { destruct Hs; try (cbn in Hb; discriminate Hb).
    - apply expr_no_bounds in H. congruence.
    - auto.
    - destruct H; cbn in Hb; discriminate. }
  destruct Hi as [Hi Hq]. destruct Hi as [tr tq v fl mn' mx' H H0|l r tq mn' mx' Hl Hr H0|l te r tq n0 mn' mx' Hl H Hr H0|l tc r tq n0 mn' mx' Hl H Hr H0];
    cbn in Hb; injection Hb as <- <-.
  - exists pre, tr, tq, post. eexists. split; [exact Hts|]. split; [pose proof (si_literal _ _ tr [] v fl 1 1 H q_none) as Hx; rewrite app_nil_r in Hx; exact Hx|].
    repeat split; try assumption. intros ->. reflexivity.
  - exists pre, [l; r], tq, post. eexists. split; [exact Hts|]. split; [apply si_wildcard; try assumption; constructor|].
    repeat split; try assumption. intros ->. reflexivity.
  - exists pre, (l :: te ++ [r]), tq, post. eexists. split; [rewrite Hts; cbn; rewrite <- !app_assoc; reflexivity|]. split; [apply si_segment; try eassumption; constructor|].
    repeat split; try assumption. intros ->. cbn [with_locs q_loc]. f_equal. cbn. rewrite <- app_assoc. reflexivity.
  - exists pre, (l :: tc ++ [r]), tq, post. eexists. split; [rewrite Hts; cbn; rewrite <- !app_assoc; reflexivity|]. split; [apply si_group; try eassumption; constructor|].
    repeat split; try assumption. intros ->. cbn [with_locs q_loc]. f_equal. cbn. rewrite <- app_assoc. reflexivity.
Qed.
(** A quantifier has one meaning. *)
Theorem C09_unambiguous : forall tq mn mx mn' mx', quantified tq mn mx -> quantified tq mn' mx' -> mn = mn' /\ mx = mx'.
Proof.
  intros tq mn mx mn' mx' H H'. unfold is_tok, int_tok in *.
  destruct H; inversion H'; subst; unfold is_tok, int_tok in *; intuition congruence.
Qed.
Lemma quantified_sane q pre core tq post mn mx : lx_tokens (lexemes q) = pre ++ (core ++ tq) ++ post ->
  quantified tq mn mx -> 0 <= mn /\ (mx = OCCURS_UNBOUNDED \/ mn <= mx).
Proof.
  intros Hts H.
  assert (Hd : forall t, In t tq -> t_type t = INTEGER -> 0 <= dec_value (t_text t)).
  { intros t Hin Ht. apply dec_value_nonneg. assert (Hin' : In t (lx_tokens (lexemes q))) by (rewrite Hts; rewrite !in_app_iff; auto).
    pose proof (proj1 (token_text_ok q t Hin')) as Hok. rewrite Ht in Hok. apply Hok. }
  unfold OCCURS_UNBOUNDED, int_tok in *.
  destruct H; unfold int_tok in *; try lia;
    repeat match goal with Hx : t_type ?t = INTEGER /\ _ |- _ => destruct Hx as [? <-] end;
    (split; [first [lia|apply Hd; [cbn; tauto|assumption]]|]); try (left; reflexivity); right; try lia.
  apply Hd; [cbn; tauto|assumption].
Qed.
(** C10.  Sane bounds. *)
Theorem C10_sane : forall V P q n m mn mx, env_ok V -> parse V P q = Ok n -> subnode m n ->
  bounds m = Some (mn, mx) -> 0 <= mn /\ (mx = OCCURS_UNBOUNDED \/ mn <= mx).
Proof.
  intros V P q n m mn mx HV Hp Hm Hb.
  destruct (C09_quantifiers V P q n m mn mx HV Hp Hm Hb) as (pre & core & tq & post & m0 & Hts & _ & _ & _ & Hq & _).
  eapply quantified_sane; eassumption.
Qed.
Theorem C10_rejected : forall V P q pre a c b post, env_ok V -> tokens q = pre ++ a :: c :: b :: post ->
  t_type a = INTEGER -> t_type c = Q_COMMA -> t_type b = INTEGER -> dec_value (t_text b) < dec_value (t_text a) ->
  exists msg, parse V P q = Raise (QueryParserError msg).
Proof.
  intros V P q pre a c b post HV Hts Ha Hc Hb Hlt. destruct (C01_parse_total V P q) as [(n & Hn)|H]; [|exact H]. exfalso.
  destruct (parse_ok_inv V P q n HV Hn) as (m & [_ (_ & _ & _ & Hx)] & _). pose proof (Hx pre a c b post Hts Ha Hc Hb). lia.
Qed.

(** ** C11, C13: expressions *)

(** What stands before and after an expression node, and what it says. *)
Lemma expr_node V P q n m qu i op v fl : env_ok V -> parse V P q = Ok n -> subnode m n ->
  q_payload m = PExpr qu i op v fl ->
  exists pre tr post, sp_regex (e_penv V) (qp_cfg P) tr v fl /\ next_not [FWD_SLASH] post /\
   ((lx_tokens (lexemes q) = pre ++ tr ++ post /\ qu = None /\ i = default_identifier (qp_cfg P) /\
     op = default_operator (qp_cfg P) /\ (enableSourceLocations (qp_cfg P) = true -> q_loc m = span tr)) \/
    (exists p ta o s post', post = s :: post' /\ lx_tokens (lexemes q) = pre ++ [p] ++ (ta ++ o :: tr) ++ s :: post' /\
     sp_attr ta qu i /\ sp_op o op /\
     In (t_type p) [L_SQUARE_BRACKET; L_PAREN; NOT; AND; OR] /\ In (t_type s) [R_SQUARE_BRACKET; R_PAREN; AND; OR] /\
     (enableSourceLocations (qp_cfg P) = true -> q_loc m = span (ta ++ o :: tr)))).
Proof.
  intros HV Hp Hm Hpl. destruct (parse_sits V P q n m HV Hp Hm) as (pre & tm & post & m0 & Hts & Hs & ->).
  rewrite with_locs_payload in Hpl. destruct Hs; try (cbn in Hpl; discriminate Hpl).
  - destruct H; cbn in Hpl; try discriminate Hpl. injection Hpl as <- <- <- <- <-.
    exists pre, tr, (s :: post). split; [assumption|]. split.
    { intros s' r Hx. injection Hx as <- <-. intros [Hin|[]]. rewrite <- Hin in H1. cbn in H1. intuition discriminate. }
    right. exists p, ta, o, s, post. rewrite <- app_assoc in Hts. repeat (split; [first [assumption|reflexivity]|]). intros ->. reflexivity.
  - cbn in Hpl. injection Hpl as <- <- <- <- <-. exists pre, ts, post. split; [assumption|]. split; [assumption|].
    left. repeat (split; [first [assumption|reflexivity]|]). intros ->. reflexivity.
  - destruct H; cbn in Hpl; discriminate.
  - destruct H; cbn in Hpl; discriminate.
Qed.

(** C11.  The flags of an expression: none if no slash follows the literal, else the
    set named by the flag letters after the slash, which is consistent. *)
Theorem C11_flags : forall V P q n m qu i op v fl, env_ok V -> parse V P q = Ok n -> subnode m n ->
  q_payload m = PExpr qu i op v fl ->
  exists pre k post, lx_tokens (lexemes q) = pre ++ k :: post /\ t_type k = REGEXP /\
    ((fl = None /\ next_not [FWD_SLASH] post) \/
     (exists s f post' S, post = s :: f :: post' /\ t_type s = FWD_SLASH /\ t_type f = REGEXP_FLAGS /\
        fl = Some S /\ flags_denote (t_text f) S /\ consistent S)).
Proof.
  intros V P q n m qu i op v fl HV Hp Hm Hpl.
  destruct (expr_node V P q n m qu i op v fl HV Hp Hm Hpl) as (pre & tr & post & Hr & Hn & Hc).
  assert (Hts : exists pre', lx_tokens (lexemes q) = pre' ++ tr ++ post).
  { destruct Hc as [(Hc & _)|(p & ta & o & s & post' & -> & Hc & _)]; [eauto|]. exists (pre ++ p :: ta ++ [o]). rewrite Hc.
    cbn. rewrite <- !app_assoc. cbn. rewrite <- !app_assoc. reflexivity. }
  destruct Hts as (pre' & Hts). destruct Hr as [k v Hk Hv|k s f v S Hk Hs Hf Hv Hfl Hco].
  - exists pre', k, post. split; [exact Hts|]. split; [exact Hk|]. left. auto.
  - exists pre', k, (s :: f :: post). split; [exact Hts|]. split; [exact Hk|]. right. exists s, f, post, S. auto 10.
Qed.

(** The flag letters as a set of characters, independent of order and repetition. *)
Theorem C11_order : forall f f' S, (forall c, In c f <-> In c f') -> flags_denote f S -> flags_denote f' S.
Proof.
  intros f f' S H Hd fl. rewrite (Hd fl). split; intros (c & Hc & Hm); exists c; (split; [apply H; exact Hc|exact Hm]).
Qed.
(** When flag letters can be combined. *)
Definition has (f : pystr) (cs : string) : Prop := exists c, In c f /\ In c (u cs).
Lemma meaning_chars c f : flag_meaning c = Some f <->
  match f with CASE_INSENSITIVE => In c (u "ic") | CASE_SENSITIVE => In c (u "IC")
  | LITERAL_MATCHING => In c (u "l") | IGNORE_DIACRITICS => In c (u "d") end.
Proof.
  unfold flag_meaning.
  destruct (N.eqb_spec c 105) as [E1|N1]; [rewrite E1; destruct f; vm_compute; intuition (try discriminate)|].
  destruct (N.eqb_spec c 99) as [E1|N2]; [rewrite E1; destruct f; vm_compute; intuition (try discriminate)|].
  destruct (N.eqb_spec c 73) as [E1|N3]; [rewrite E1; destruct f; vm_compute; intuition (try discriminate)|].
  destruct (N.eqb_spec c 67) as [E1|N4]; [rewrite E1; destruct f; vm_compute; intuition (try discriminate)|].
  destruct (N.eqb_spec c 108) as [E1|N5]; [rewrite E1; destruct f; vm_compute; intuition (try discriminate)|].
  destruct (N.eqb_spec c 100) as [E1|N6]; [rewrite E1; destruct f; vm_compute; intuition (try discriminate)|].
  cbn. destruct f; split; try discriminate; intros H; vm_compute in H; intuition congruence.
Qed.
Lemma flags_denote_exists f : Forall is_flag_char f -> exists S, flags_denote f S.
Proof.
  intros Hf. destruct (flag_loop_ok f no_flags Hf) as (S & _ & H). exists S.
  intros fl. rewrite H. split; [intros [H0|H0]; [destruct fl; discriminate H0|exact H0]|right; assumption].
Qed.
Theorem C11_consistent : forall f, Forall is_flag_char f ->
  (flags_ok f <-> ~ (has f "ic" /\ has f "IC") /\ ~ (has f "l" /\ has f "iIcCd")).
Proof.
  intros f Hf. destruct (flags_denote_exists f Hf) as (S & HS).
  assert (Hin : forall fl, flag_in fl S = true <-> has f (match fl with CASE_INSENSITIVE => "ic" | CASE_SENSITIVE => "IC"
     | LITERAL_MATCHING => "l" | IGNORE_DIACRITICS => "d" end)).
  { intros fl. rewrite (HS fl). unfold has. split; intros (c & Hc & H); exists c; (split; [exact Hc|]);
      [apply meaning_chars in H; destruct fl; exact H|apply meaning_chars; destruct fl; exact H]. }
  assert (Hcs : has f "iIcCd" <-> has f "ic" \/ has f "IC" \/ has f "d").
  { unfold has. split.
    - intros (c & Hc & H). vm_compute in H. destruct H as [H|[H|[H|[H|[H|[]]]]]]; [left|right; left|left|right; left|right; right];
        exists c; (split; [exact Hc|vm_compute; auto]).
    - intros [(c & Hc & H)|[(c & Hc & H)|(c & Hc & H)]]; exists c; (split; [exact Hc|]); vm_compute in H; vm_compute; intuition. }
  rewrite Hcs. rewrite <- (Hin CASE_INSENSITIVE), <- (Hin CASE_SENSITIVE), <- (Hin LITERAL_MATCHING), <- (Hin IGNORE_DIACRITICS).
  split.
  - intros (S' & HS' & Hco). rewrite (flags_denote_det f S' S HS' HS) in Hco. destruct Hco as [A B]. split; [exact A|].
    intros [Hl Ho]. specialize (B Hl). destruct Ho as [Ho|[Ho|Ho]]; apply B in Ho; discriminate.
  - intros [A B]. exists S. split; [exact HS|]. split; [exact A|]. intros Hl fl Hfl. destruct fl; try reflexivity; exfalso; apply B; auto.
Qed.

(** C13.  Attributes are taken verbatim. *)
Theorem C13_verbatim : forall V P q n m qu i op v fl, env_ok V -> parse V P q = Ok n -> subnode m n ->
  q_payload m = PExpr qu i op v fl ->
  (* a bare literal *)
  (exists pre k post, lx_tokens (lexemes q) = pre ++ k :: post /\ t_type k = REGEXP /\
     (forall pre' p, pre = pre' ++ [p] -> ~ In (t_type p) [OPERATOR_EQ; OPERATOR_NE]) /\
     qu = None /\ i = default_identifier (qp_cfg P) /\ op = default_operator (qp_cfg P)) \/
  (* identifier operator literal, after something that cannot belong to the attribute *)
  (exists pre p ti o k post, lx_tokens (lexemes q) = pre ++ p :: ti :: o :: k :: post /\ t_type k = REGEXP /\
     In (t_type p) [L_SQUARE_BRACKET; L_PAREN; NOT; AND; OR] /\
     qu = None /\ i = t_text ti /\ sp_op o op /\ name_tok ti) \/
  (* qualifier:identifier operator literal *)
  (exists pre p tq c ti o k post, lx_tokens (lexemes q) = pre ++ p :: tq :: c :: ti :: o :: k :: post /\ t_type k = REGEXP /\
     In (t_type p) [L_SQUARE_BRACKET; L_PAREN; NOT; AND; OR] /\ t_type c = COLON /\
     qu = Some (t_text tq) /\ i = t_text ti /\ sp_op o op /\ name_tok tq /\ name_tok ti).
Proof.
  intros V P q n m qu i op v fl HV Hp Hm Hpl.
  destruct (parse_sits V P q n m HV Hp Hm) as (pre & tm & post & m0 & Hts & Hs & ->).
  rewrite with_locs_payload in Hpl. destruct Hs; try (cbn in Hpl; discriminate Hpl).
  - destruct H; cbn in Hpl; try discriminate Hpl. injection Hpl as <- <- <- <- <-. right.
    assert (Hr : exists k tr', tr = k :: tr' /\ t_type k = REGEXP) by (destruct H3; eauto).
    destruct Hr as (k & tr' & -> & Hk). destruct H as [i Hi|qu c i Hq Hc Hi]; [left|right].
    + exists pre, p, i, o, k, (tr' ++ s :: post). rewrite Hts, <- app_assoc. auto 10.
    + exists pre, p, qu, c, i, o, k, (tr' ++ s :: post). rewrite Hts, <- app_assoc. auto 12.
  - cbn in Hpl. injection Hpl as <- <- <- <- <-. left.
    assert (Hr : exists k tr', ts = k :: tr' /\ t_type k = REGEXP) by (destruct H; eauto).
    destruct Hr as (k & tr' & -> & Hk). exists pre, k, (tr' ++ post). repeat (split; [first [assumption|reflexivity]|]).
    split; [|auto]. intros pre' p Hpre Hin.
    apply H1 in Hpre. cbn in Hpre, Hin. destruct Hin as [Hin|[Hin|[]]]; rewrite <- Hin in Hpre; intuition discriminate.
  - destruct H; cbn in Hpl; discriminate.
  - destruct H; cbn in Hpl; discriminate.
Qed.

(** ** C14: within *)
Lemma main_end E C ts n : sp_main E C ts n -> exists a p, ts = a ++ [p] /\ In (t_type p) item_end.
Proof.
  assert (Hseq : forall ts ns, sp_seq E C ts ns -> exists a p, ts = a ++ [p] /\ In (t_type p) item_end).
  { induction 1 as [ts0 n0 H|ts0 n0 ts' ns H _ (a & p & -> & Hp)]; [eapply item_last; exact H|]. exists (ts0 ++ a), p. rewrite app_assoc. auto. }
  assert (Hop : forall ts n, sp_operand E C ts n -> exists a p, ts = a ++ [p] /\ In (t_type p) item_end).
  { destruct 1; [eapply item_last; eassumption|eapply Hseq; eassumption]. }
  assert (Halt : forall ts ns, sp_alts E C ts ns -> exists a p, ts = a ++ [p] /\ In (t_type p) item_end).
  { induction 1 as [ts0 n0 H|ts0 n0 k ts' ns H _ _ (a & p & -> & Hp)]; [eapply Hop; exact H|]. exists (ts0 ++ k :: a), p. rewrite <- app_assoc. auto. }
  destruct 1 as [ts n H|ts n H]; [eapply item_last; exact H|]. destruct H; eauto.
Qed.
Lemma main_payload E C ts n : sp_main E C ts n -> In (q_class n) [CQuerySegment; CQueryGroup; CQuerySequence; CQueryDisjunction].
Proof. destruct 1 as [ts n H|ts n H]; destruct H; cbn; tauto. Qed.
Lemma main_inner E C ts n m : sp_main E C ts n -> subnode m n -> q_class m <> CQueryWithWithin /\ q_class m <> CSimpleWithin.
Proof.
  intros H Hm. set (e := eof_token []).
  assert (Hs : sits E C [] ts [e] n).
  { apply main_sits; [exact H| |apply start_nil]. intros s r Hx. injection Hx as <- <-. cbn. intuition discriminate. }
  destruct (subnode_sits E C m n Hm _ _ _ Hs) as (a & tc & b & _ & Hsit).
  remember ([] ++ a) as pre eqn:Hpre. remember (b ++ [e]) as post eqn:Hpost.
  destruct Hsit as [? ? ? ? ? ? Hx| | |? ? ? ? Hx|? ? ? ? Hx| |]; try (split; discriminate).
  - destruct Hx; split; discriminate.
  - destruct Hx; split; discriminate.
  - destruct Hx; split; discriminate.
  - destruct b; discriminate.
  - destruct b; discriminate.
Qed.

(** C14.  The query ends in a within clause exactly if the root is a QueryWithWithin, whose
    children are the query proper and the SimpleWithin with the scope of the word; no
    other node is a QueryWithWithin or SimpleWithin. *)
Theorem C14_root : forall V P q n, env_ok V -> parse V P q = Ok n ->
  (q_class n = CQueryWithWithin <->
   exists pre w k, lx_tokens (lexemes q) = pre ++ [w; k] /\ t_type w = WITHIN /\ t_type k = SIMPLE_WITHIN_SCOPE).
Proof.
  intros V P q n HV Hp. destruct (parse_ok_inv V P q n HV Hp) as (n0 & _ & Hs & ->). rewrite with_locs_class.
  rewrite tokens_split in Hs. remember (lx_tokens (lexemes q) ++ [eof_token q]) as ts eqn:Hts.
  destruct Hs as [ts n e H He|ts n w k sc e H Hw Hk Hsc He].
  - apply app_inj_tail in Hts. destruct Hts as [<- _]. split.
    + intros Hc. apply main_payload in H. rewrite Hc in H. cbn in H. intuition discriminate.
    + intros (pre & w & k & Hx & _ & Hk). destruct (main_end _ _ _ _ H) as (a & p & Hy & Hp'). rewrite Hy in Hx.
      change [w; k] with ([w] ++ [k]) in Hx. rewrite app_assoc in Hx. apply app_inj_tail in Hx. destruct Hx as [_ ->].
      rewrite Hk in Hp'. cbn in Hp'. intuition discriminate.
  - split; [intros _|reflexivity]. change [w; k; e] with ([w; k] ++ [e]) in Hts. rewrite app_assoc in Hts. apply app_inj_tail in Hts.
    destruct Hts as [<- _]. exists ts, w, k. auto.
Qed.
Theorem C14_children : forall V P q n, env_ok V -> parse V P q = Ok n -> q_class n = CQueryWithWithin ->
  exists pre w k sc query lw, lx_tokens (lexemes q) = pre ++ [w; k] /\ scope_word (t_text k) sc /\
    q_children n = [query; QN (PSimpleWithin sc) lw []] /\
    In (q_class query) [CQuerySegment; CQueryGroup; CQuerySequence; CQueryDisjunction].
Proof.
  intros V P q n HV Hp. destruct (parse_ok_inv V P q n HV Hp) as (n0 & _ & Hs & ->). rewrite with_locs_class.
  rewrite tokens_split in Hs. remember (lx_tokens (lexemes q) ++ [eof_token q]) as ts eqn:Hts.
  destruct Hs as [ts n e H He|ts n w k sc e H Hw Hk Hsc He]; intros Hc.
  - apply main_payload in H. rewrite Hc in H. cbn in H. intuition discriminate.
  - change [w; k; e] with ([w; k] ++ [e]) in Hts. rewrite app_assoc in Hts. apply app_inj_tail in Hts. destruct Hts as [<- _].
    exists ts, w, k, sc, (with_locs (enableSourceLocations (qp_cfg P)) n), (q_loc (with_locs (enableSourceLocations (qp_cfg P)) (QN (PSimpleWithin sc) (span [k]) []))).
    rewrite with_locs_children. cbn [map q_children]. split; [reflexivity|]. split; [exact Hsc|].
    split; [|rewrite with_locs_class; eapply main_payload; exact H]. destruct (enableSourceLocations _); reflexivity.
Qed.
Theorem C14_inner : forall V P q n c m, env_ok V -> parse V P q = Ok n -> In c (q_children n) -> subnode m c ->
  q_class m <> CQueryWithWithin /\
  (q_class m = CSimpleWithin -> q_class n = CQueryWithWithin /\ nth_error (q_children n) 1 = Some m).
Proof.
  intros V P q n c m HV Hp Hc Hm. destruct (parse_ok_inv V P q n HV Hp) as (n0 & _ & Hs & ->). rewrite with_locs_class.
  rewrite with_locs_children in *. apply in_map_iff in Hc. destruct Hc as (c0 & <- & Hc).
  apply subnode_with_locs in Hm. destruct Hm as (m0 & Hm & ->). rewrite with_locs_class.
  destruct Hs as [ts n e H He|ts n w k sc e H Hw Hk Hsc He].
  - destruct (main_inner _ _ _ _ m0 H) as [A B]; [destruct n; econstructor; eassumption|]. split; [exact A|intros Hx; contradiction].
  - cbn [q_children] in Hc. destruct Hc as [<-|[<-|[]]].
    + destruct (main_inner _ _ _ _ m0 H Hm) as [A B]. split; [exact A|intros Hx; contradiction].
    + assert (Hm0 : m0 = QN (PSimpleWithin sc) (span [k]) []).
      { inversion Hm; subst; [reflexivity|]. match goal with Hx : In _ [] |- _ => destruct Hx end. }
      rewrite Hm0. split; [discriminate|]. auto.
Qed.
(** The scope words. *)
Theorem C14_scopes : forall w sc sc', scope_word w sc -> scope_word w sc' -> sc = sc'.
Proof. intros w sc sc' H H'. destruct H; inversion H'; reflexivity. Qed.

(** ** C15: shape *)
Definition expr_class (c : class) : Prop :=
  In c [CExpression; CExpressionGroup; CExpressionNot; CExpressionAnd; CExpressionOr].
Definition item_class (c : class) : Prop := In c [CQuerySegment; CQueryGroup].
(** Number and classes of the children of a node. *)
Definition shape_ok (p : payload) (cs : list class) : Prop :=
  match p with
  | PExpr _ _ _ _ _ | PWildcard | PSimpleWithin _ => cs = []
  | PExprGroup | PNot => exists c, cs = [c] /\ expr_class c
  | PAnd => (2 <= List.length cs)%nat /\ Forall (fun c => expr_class c /\ c <> CExpressionAnd) cs
  | POr => (2 <= List.length cs)%nat /\ Forall (fun c => expr_class c /\ c <> CExpressionOr) cs
  | PSegment _ _ => exists c, cs = [c] /\ (expr_class c \/ c = CExpressionWildcard)
  | PQGroup _ _ => exists c, cs = [c] /\ (c = CQuerySequence \/ c = CQueryDisjunction)
  | PSequence => (1 <= List.length cs)%nat /\ Forall item_class cs
  | PDisjunction => (2 <= List.length cs)%nat /\ Forall (fun c => item_class c \/ c = CQuerySequence) cs
  | PWithWithin => exists c, cs = [c; CSimpleWithin] /\ (item_class c \/ c = CQuerySequence \/ c = CQueryDisjunction)
  end.
Lemma expr_is_class E C ts n : sp_expr E C ts n -> expr_class (q_class n).
Proof. destruct 1; unfold expr_class; cbn; tauto. Qed.
Lemma item_is_class E C ts n : sp_item E C ts n -> item_class (q_class n).
Proof. destruct 1; unfold item_class; cbn; tauto. Qed.
Lemma exprs_classes E C sep ts ns : sp_exprs E C sep ts ns -> Forall expr_class (map q_class ns).
Proof. induction 1; cbn; (constructor; [eapply expr_is_class; eassumption|try assumption; constructor]). Qed.
Lemma seq_classes E C ts ns : sp_seq E C ts ns -> Forall item_class (map q_class ns) /\ (1 <= List.length ns)%nat.
Proof. induction 1 as [|ts n ts' ns H _ [IH _]]; (split; [|cbn; lia]); cbn; (constructor; [eapply item_is_class; eassumption|try assumption; constructor]). Qed.
Lemma alts_classes E C ts ns : sp_alts E C ts ns -> Forall (fun c => item_class c \/ c = CQuerySequence) (map q_class ns).
Proof.
  assert (Ho : forall ts n, sp_operand E C ts n -> item_class (q_class n) \/ q_class n = CQuerySequence).
  { destruct 1; [left; eapply item_is_class; eassumption|right; reflexivity]. }
  induction 1; cbn; (constructor; [eapply Ho; eassumption|try assumption; constructor]).
Qed.
Lemma class_and n : q_payload n <> PAnd -> q_class n <> CExpressionAnd.
Proof. unfold q_class. destruct (q_payload n); cbn; congruence. Qed.
Lemma class_or n : q_payload n <> POr -> q_class n <> CExpressionOr.
Proof. unfold q_class. destruct (q_payload n); cbn; congruence. Qed.
Lemma stands_shape E C ts n : stands E C ts n -> shape_ok (q_payload n) (map q_class (q_children n)).
Proof.
  destruct 1 as [ts n H|ts v fl H|l r Hl Hr|ts n H|ts n H|k sc Hk Hs|ts n w k sc H Hw Hk Hs]; try reflexivity.
  - destruct H; cbn; try reflexivity.
    + eexists. split; [reflexivity|]. eapply expr_is_class; eassumption.
    + eexists. split; [reflexivity|]. eapply expr_is_class; eassumption.
    + split; [rewrite map_length; assumption|]. apply exprs_classes in H. rewrite Forall_forall in H |- *. intros c Hc.
      split; [apply H; exact Hc|]. apply in_map_iff in Hc. destruct Hc as (x & <- & Hx). apply class_and. auto.
    + split; [rewrite map_length; assumption|]. apply exprs_classes in H. rewrite Forall_forall in H |- *. intros c Hc.
      split; [apply H; exact Hc|]. apply in_map_iff in Hc. destruct Hc as (x & <- & Hx). apply class_or. auto.
  - destruct H; cbn; eexists; (split; [reflexivity|]).
    + left. unfold expr_class. cbn. tauto.
    + right. reflexivity.
    + left. eapply expr_is_class; eassumption.
    + destruct H0; cbn; tauto.
  - destruct H; cbn; rewrite map_length.
    + apply seq_classes in H. tauto.
    + split; [assumption|]. eapply alts_classes; eassumption.
  - cbn. exists (q_class n). split; [reflexivity|]. apply main_payload in H. cbn in H. unfold item_class. cbn.
    destruct H as [H|[H|[H|[H|[]]]]]; rewrite <- H; tauto.
Qed.
Theorem C15_shape : forall V P q n m, env_ok V -> parse V P q = Ok n -> subnode m n ->
  shape_ok (q_payload m) (map q_class (q_children m)).
Proof.
  intros V P q n m HV Hp Hm. destruct (parse_node V P q n m HV Hp Hm) as (pre & tm & post & m0 & _ & Hs & ->).
  rewrite with_locs_payload, with_locs_children, map_map. erewrite map_ext; [eapply stands_shape; exact Hs|].
  intros a. apply with_locs_class.
Qed.
Theorem C15_root : forall V P q n, env_ok V -> parse V P q = Ok n ->
  In (q_class n) [CQuerySegment; CQueryGroup; CQuerySequence; CQueryDisjunction; CQueryWithWithin].
Proof.
  intros V P q n HV Hp. destruct (parse_ok_inv V P q n HV Hp) as (n0 & _ & Hs & ->). rewrite with_locs_class.
  destruct Hs as [ts n e H He|ts n w k sc e H Hw Hk Hsc He]; [|cbn; tauto]. apply main_payload in H. cbn in *. tauto.
Qed.

(** ** C21-C23: source locations *)
Theorem C21_locations : forall V P q n m, env_ok V -> parse V P q = Ok n -> subnode m n ->
  if enableSourceLocations (qp_cfg P)
  then exists l, q_loc m = Some l /\ 0 <= l_start l < l_stop l /\ l_stop l <= zlen q
  else q_loc m = None.
Proof.
  intros V P q n m HV Hp Hm. destruct (parse_node V P q n m HV Hp Hm) as (pre & tm & post & m0 & Hts & Hs & ->).
  destruct (enableSourceLocations (qp_cfg P)); cbn [with_locs]; [|destruct m0; reflexivity].
  rewrite (stands_loc _ _ _ _ Hs). destruct tm as [|a r]; [exfalso; exact (stands_ne _ _ _ _ Hs eq_refl)|].
  destruct (parse_ok_inv V P q n HV Hp) as (_ & [[Hl _] _] & _).
  destruct (token_span q pre a r post Hl Hts) as (H1 & H2 & _). eexists. split; [reflexivity|]. cbn [l_start l_stop]. auto.
Qed.
(** C22.  The part of the query a node's location points at begins and ends at token
    boundaries, and its tokens are exactly those the node is built from. *)
Theorem C22_source_text : forall V P q n m, env_ok V -> enableSourceLocations (qp_cfg P) = true ->
  parse V P q = Ok n -> subnode m n ->
  exists l tm, q_loc m = Some l /\
    let text := slice q (l_start l) (l_stop l) in
    (exists x y, q = x ++ text ++ y /\ zlen x = l_start l /\
       token_boundary q (List.length x) /\ token_boundary q (List.length (x ++ text))) /\
    lex_errors text = [] /\ lx_sigs (lexemes text) = map sig tm /\
    stands (e_penv V) (qp_cfg P) tm m.
Proof.
  intros V P q n m HV Hen Hp Hm. destruct (parse_node V P q n m HV Hp Hm) as (pre & tm & post & m0 & Hts & Hs & Hmm).
  rewrite Hen in Hmm. cbn in Hmm. subst m0.
  rewrite (stands_loc _ _ _ _ Hs). destruct tm as [|a r]; [exfalso; exact (stands_ne _ _ _ _ Hs eq_refl)|].
  destruct (parse_ok_inv V P q n HV Hp) as (_ & [[Hl _] _] & _).
  destruct (token_span q pre a r post Hl Hts) as (_ & _ & H3 & H4 & x & y & H5 & H6 & H7).
  eexists _, (a :: r). split; [reflexivity|]. cbn [l_start l_stop]. split; [exists x, y; auto|]. auto.
Qed.
(** C23.  The locations of the children lie in that of the parent, one after the other. *)
Fixpoint locs_in (lo hi : Z) (cs : list qnode) : Prop :=
  match cs with
  | [] => lo <= hi
  | c :: cs' => exists l, q_loc c = Some l /\ lo <= l_start l /\ l_start l < l_stop l /\ locs_in (l_stop l) hi cs'
  end.
Definition after_tokens (p : Z) (ts : list token) : Z := fold_left (fun _ t => t_stop t + 1) ts p.
Lemma ordered_app : forall x y p, ordered p (x ++ y) <-> ordered p x /\ ordered (after_tokens p x) y.
Proof.
  induction x as [|t x IH]; intros y p; cbn [app ordered after_tokens fold_left]; [tauto|].
  change (fold_left _ x (t_stop t + 1)) with (after_tokens (t_stop t + 1) x). rewrite (IH y). tauto.
Qed.
Lemma ordered_after : forall ts p, ordered p ts -> p <= after_tokens p ts.
Proof.
  induction ts as [|t ts IH]; intros p; cbn [ordered after_tokens fold_left]; [lia|]. intros [Ht H].
  change (fold_left _ ts (t_stop t + 1)) with (after_tokens (t_stop t + 1) ts). specialize (IH _ H). lia.
Qed.
Lemma after_app : forall x y p, after_tokens p (x ++ y) = after_tokens (after_tokens p x) y.
Proof. intros x y p. unfold after_tokens. apply fold_left_app. Qed.
Lemma after_last a r p : after_tokens p (a :: r) = t_stop (last (a :: r) a) + 1.
Proof.
  destruct (exists_last (l := a :: r) ltac:(discriminate)) as (r0 & b & Hb). rewrite Hb, after_app, last_last. reflexivity.
Qed.
Lemma parts_locs E C ts cs : parts E C ts cs -> forall p, ordered p ts -> locs_in p (after_tokens p ts) cs.
Proof.
  induction 1 as [ts|pre tc c post cs Hc _ IH]; intros p Ho; cbn [locs_in]; [apply ordered_after; exact Ho|].
  rewrite !ordered_app in Ho. destruct Ho as (H1 & H2 & H3). rewrite (stands_loc _ _ _ _ Hc).
  destruct tc as [|a r]; [exfalso; exact (stands_ne _ _ _ _ Hc eq_refl)|]. eexists. split; [reflexivity|]. cbn [l_start l_stop].
  rewrite !after_app, <- (after_last a r (after_tokens p pre)).
  apply ordered_after in H1. split; [cbn [ordered] in H2; lia|]. split; [|apply IH; exact H3].
  change (a :: r) with ([a] ++ r) in *. rewrite after_app. rewrite ordered_app in H2. destruct H2 as [[H2 _] H4]. apply ordered_after in H4.
  cbn [after_tokens fold_left] in *. unfold after_tokens in *. cbn in *. lia.
Qed.
Theorem C23_nested : forall V P q n m l, env_ok V -> parse V P q = Ok n -> subnode m n -> q_loc m = Some l ->
  locs_in (l_start l) (l_stop l) (q_children m).
Proof.
  intros V P q n m l HV Hp Hm Hloc. destruct (parse_node V P q n m HV Hp Hm) as (pre & tm & post & m0 & Hts & Hs & Hmm).
  destruct (enableSourceLocations (qp_cfg P)); [|rewrite Hmm in Hloc; destruct m0; discriminate]. cbn in Hmm. subst m0.
  rewrite (stands_loc _ _ _ _ Hs) in Hloc. destruct tm as [|a r]; [exfalso; exact (stands_ne _ _ _ _ Hs eq_refl)|].
  assert (Hl : l = mkLoc (t_start a) (after_tokens (t_start a) (a :: r))) by (rewrite after_last; cbn [span] in Hloc; congruence).
  rewrite Hl. cbn [l_start l_stop].
  apply (parts_locs _ _ _ _ (stands_parts _ _ _ _ Hs)). pose proof (lexf_ordered q 0 1 0) as Ho. rewrite <- lexemes_lexf, Hts in Ho.
  rewrite !ordered_app in Ho. destruct Ho as (_ & Ho & _). cbn [ordered] in *. split; [lia|]. apply Ho.
Qed.

(** ** A concrete query for C09-C15 and C21-C23 *)
Fixpoint all_nodes (n : qnode) : list qnode := match n with QN _ _ ch => n :: flat_map all_nodes ch end.
Lemma all_nodes_sub n : forall m, In m (all_nodes n) -> subnode m n.
Proof.
  induction n as [p l ch IH] using qnode_ind'. intros m [<-|H]; [constructor|]. apply in_flat_map in H. destruct H as (c & Hc & Hm).
  eapply sub_child; [exact Hc|]. rewrite Forall_forall in IH. exact (IH c Hc m Hm).
Qed.
Definition sample_query : pystr := u "[l:word = 'a']{2,3} ([!(w = 'b' & v != 'c')] | 'x')* 'e'/C [] within s".
Definition sample_tree : qnode :=
  Eval vm_compute in match parse some_env (new_parser (default_cfg true)) sample_query with Ok n => n | Raise _ => QN PWildcard None [] end.
(** It is accepted; these are its nodes, with their source locations (C15, C21-C23). *)
Example C15_witness : parse some_env (new_parser (default_cfg true)) sample_query = Ok sample_tree /\
  map (fun m => (q_class m, option_map (fun l => (l_start l, l_stop l)) (q_loc m))) (all_nodes sample_tree) =
  [(CQueryWithWithin, Some (0, 70)); (CQuerySequence, Some (0, 61)); (CQuerySegment, Some (0, 19)); (CExpression, Some (1, 13)); (CQueryGroup, Some (20, 52));
   (CQueryDisjunction, Some (21, 50)); (CQuerySegment, Some (21, 44)); (CExpressionNot, Some (22, 43)); (CExpressionGroup, Some (23, 43)); (CExpressionAnd, Some (24, 42));
   (CExpression, Some (24, 31)); (CExpression, Some (34, 42)); (CQuerySegment, Some (47, 50)); (CExpression, Some (47, 50)); (CQuerySegment, Some (53, 58));
   (CExpression, Some (53, 58)); (CQuerySegment, Some (59, 61)); (CExpressionWildcard, Some (59, 61)); (CSimpleWithin, Some (69, 70))].
Proof. vm_compute. split; reflexivity. Qed.
(** The bounds of its segments and groups, in order (C09, C10). *)
Example C09_witness : flat_map (fun m => match bounds m with Some b => [b] | None => [] end) (all_nodes sample_tree) =
  [(2, 3); (0, OCCURS_UNBOUNDED); (1, 1); (1, 1); (1, 1); (1, 1)].
Proof. vm_compute. reflexivity. Qed.
Example C10_witness : exists pre a c b post, tokens (u "'x'{10,9}") = pre ++ a :: c :: b :: post /\ t_type a = INTEGER /\ t_type c = Q_COMMA /\ t_type b = INTEGER /\
  dec_value (t_text b) < dec_value (t_text a).
Proof. eexists [_; _], _, _, _, [_; _]. split; [vm_compute; reflexivity|]. vm_compute. repeat split. Qed.
(** Its expressions: one with a flag, three with identifiers of their own, one of them with a qualifier (C11, C13). *)
Example C11_witness : flat_map (fun m => match q_payload m with PExpr qu i op v fl => [(qu, i, op, v, fl)] | _ => [] end) (all_nodes sample_tree) =
  [(Some (u "l"), u "word", EQUALS, u "a", None); (None, u "w", EQUALS, u "b", None); (None, u "v", NOT_EQUALS, u "c", None);
   (None, u "text", EQUALS, u "x", None); (None, u "text", EQUALS, u "e", Some (mkFlags false true false false))].
Proof. vm_compute. reflexivity. Qed.
(** Flag words: [id] and [di] mean the same, [li] is inconsistent. *)
Example C11_witness_flags :
  (forall w, In w ["'a'/id"; "'a'/di"]%string -> exists n m, parse some_env (new_parser (default_cfg true)) (u w) = Ok n /\ subnode m n /\
     exists qu i op v, q_payload m = PExpr qu i op v (Some (mkFlags true false false true))) /\
  exists msg, parse some_env (new_parser (default_cfg true)) (u "'a'/li") = Raise (QueryParserError msg).
Proof.
  split.
  - intros w [<-|[<-|[]]]; eexists _, _; (split; [vm_compute; reflexivity|]); (split; [eapply sub_child; [left; reflexivity|apply sub_here]|]); eexists _, _, _, _; reflexivity.
  - eexists. vm_compute. reflexivity.
Qed.
(** The first of the children of the root, a scope word, and nothing else of these classes (C14). *)
Example C14_witness : q_class sample_tree = CQueryWithWithin /\ map q_payload (q_children sample_tree) = [PSequence; PSimpleWithin SENTENCE] /\
  exists pre w k, lx_tokens (lexemes sample_query) = pre ++ [w; k] /\ t_type w = WITHIN /\ t_type k = SIMPLE_WITHIN_SCOPE.
Proof.
  split; [reflexivity|]. split; [reflexivity|]. exists (removelast (removelast (lx_tokens (lexemes sample_query)))). eexists _, _. split; [vm_compute; reflexivity|]. split; reflexivity.
Qed.
(** The texts that the nodes of the tree stand for (C21-C23). *)
Example C22_witness : map (fun m => match q_loc m with Some l => slice sample_query (l_start l) (l_stop l) | None => [] end) (all_nodes sample_tree) =
  map u ["[l:word = 'a']{2,3} ([!(w = 'b' & v != 'c')] | 'x')* 'e'/C [] within s"; "[l:word = 'a']{2,3} ([!(w = 'b' & v != 'c')] | 'x')* 'e'/C []";
         "[l:word = 'a']{2,3}"; "l:word = 'a'"; "([!(w = 'b' & v != 'c')] | 'x')*"; "[!(w = 'b' & v != 'c')] | 'x'"; "[!(w = 'b' & v != 'c')]"; "!(w = 'b' & v != 'c')";
         "(w = 'b' & v != 'c')"; "w = 'b' & v != 'c'"; "w = 'b'"; "v != 'c'"; "'x'"; "'x'"; "'e'/C"; "'e'/C"; "[]"; "[]"; "s"]%string.
Proof. vm_compute. reflexivity. Qed.
