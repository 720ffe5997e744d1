(** From tokens to [QueryParser.parse]. *)
From Coq Require Import String.
From Verif Require Import Base Regex LexRules Lexer Grammar Antlr Ast Builder Parser LexSpec LitSpec LexThms
  GramSpec GramFacts ValueSpec ValueFacts SpellSpec BuilderFacts BuilderRules ParseSpec.
Local Open Scope Z_scope.

(** Induction over trees. *)
Fixpoint qnode_ind' (P : qnode -> Prop)
  (H : forall p l ch, Forall P ch -> P (QN p l ch)) (n : qnode) {struct n} : P n :=
  match n with
  | QN p l ch => H p l ch
      ((fix go (l : list qnode) : Forall P l :=
          match l with [] => Forall_nil P | c :: l' => Forall_cons c (qnode_ind' P H c) (go l') end) ch)
  end.

Definition with_locs (b : bool) (n : qnode) : qnode := if b then n else erase n.
Lemma alloc_tree b n : alloc new_tree set_loc_tree b n tt = (tt, with_locs b n).
Proof.
  induction n as [p l ch IH] using qnode_ind'. rewrite alloc_eq.
  assert (Hl : alloc_list new_tree set_loc_tree b ch tt = (tt, map (with_locs b) ch)).
  { induction IH as [|c ch Hc _ IH']; [reflexivity|]. cbn [alloc_list]. rewrite Hc, IH'. reflexivity. }
  rewrite Hl. unfold alloc1, new_tree, set_loc_tree, with_locs. destruct b; cbn; [|reflexivity].
  rewrite map_id. reflexivity.
Qed.

Lemma build_tree_ok E C t q : yields E C t q -> build_tree E C t = Ok (with_locs (enableSourceLocations C) q).
Proof.
  intros H. unfold build_tree, run_builder. rewrite <- (at_loc_self C) at 1. rewrite H, alloc_tree. reflexivity.
Qed.
Lemma build_tree_fails E C t : fails E C t -> exists e, build_tree E C t = Raise e.
Proof.
  intros (e & He). exists e. unfold build_tree, run_builder. rewrite <- (at_loc_self C) at 1. rewrite He. reflexivity.
Qed.
Lemma build_heap_ok E C t q h : yields E C t q ->
  build_heap E C t h = let (h', n) := alloc new_obj set_loc_obj (enableSourceLocations C) q h in Ok (n, h').
Proof.
  intros H. unfold build_heap, run_builder. rewrite <- (at_loc_self C) at 1. rewrite H.
  destruct (alloc new_obj set_loc_obj (enableSourceLocations C) q h). reflexivity.
Qed.

Lemma syntax_errors_none V q : env_ok V -> syntax_errors V q = [] <-> well_formed q.
Proof.
  intros HV. unfold syntax_errors, listener_calls, well_formed. rewrite <- in_grammar_conforms.
  destruct (in_grammar (tokens q)) eqn:Hg.
  - destruct (lex_errors q); cbn; intuition discriminate.
  - destruct (HV q Hg) as [(c & Hc & _) _]. split; [|intros [_ H]; discriminate].
    destruct (e_calls V q); [destruct Hc|discriminate].
Qed.

(** The tree of a well-formed query. *)
Lemma antlr_tree q : conforms (tokens q) -> exists t, antlr_query (tokens q) = Some t /\
  parse_tree query t /\ leaves t = tokens q.
Proof.
  intros H. destruct (antlr_query_selects _ H) as (t & A & _ & B & D). exists t. auto.
Qed.

(** The outcome of the tree builder on a well-formed query, for all settings
    that agree with [C] up to source locations, and all node representations. *)
Lemma well_formed_outcome E C q t : conforms (tokens q) -> antlr_query (tokens q) = Some t ->
  (exists n, sp_query E C (tokens q) n /\ texts_ok E (tokens q) /\ yields E C t n) \/
  (~ texts_ok E (tokens q) /\ fails E C t).
Proof.
  intros Hc Ht. destruct (antlr_tree q Hc) as (t' & Ht' & Hp & Hl). rewrite Ht in Ht'. injection Ht' as <-.
  destruct (query_spec E C t Hp) as [_ H]; [rewrite Hl; apply tokens_ok|]. rewrite Hl in H.
  rewrite <- texts_ok_conds in H. destruct H as [(n & A & B & D)|H]; [left|right; exact H].
  exists n. rewrite texts_ok_conds. auto.
Qed.

Lemma handle_qp {A} e : exists m, @handle A (Raise e) = Raise (QueryParserError m).
Proof. destruct e; cbn; eauto. Qed.

Lemma parse_body_wf {A} (bld : ptree -> res A) V q : env_ok V -> well_formed q ->
  exists t, antlr_query (tokens q) = Some t /\ parse_body bld V q = bld t.
Proof.
  intros HV Hw. destruct (antlr_tree q (proj2 Hw)) as (t & Ht & _). exists t. split; [exact Ht|].
  unfold parse_body. rewrite (proj2 (syntax_errors_none V q HV) Hw), Ht. reflexivity.
Qed.
Lemma parse_body_not_wf {A} (bld : ptree -> res A) V q : env_ok V -> ~ well_formed q ->
  exists e es, syntax_errors V q = e :: es /\
    parse_body bld V q = Raise (QueryParserError (u "unable to parse query: " ++ ed_message e)).
Proof.
  intros HV Hw. destruct (syntax_errors V q) as [|e es] eqn:He.
  - exfalso. apply Hw. apply (syntax_errors_none V q HV). exact He.
  - exists e, es. split; [reflexivity|]. unfold parse_body. rewrite He. reflexivity.
Qed.

Lemma well_formed_dec q : well_formed q \/ ~ well_formed q.
Proof.
  unfold well_formed. rewrite <- in_grammar_conforms. destruct (lex_errors q); [|right; intros [H _]; discriminate].
  destruct (in_grammar (tokens q)); [left; auto|right; intros [_ H]; discriminate].
Qed.

(** The two outcomes of [parse]. *)
Lemma parse_outcome V P q : env_ok V ->
  (exists n, accepted V q /\ sp_query (e_penv V) (qp_cfg P) (tokens q) n /\
     (exists t, antlr_query (tokens q) = Some t /\ yields (e_penv V) (qp_cfg P) t n) /\
     parse V P q = Ok (with_locs (enableSourceLocations (qp_cfg P)) n)) \/
  (~ accepted V q /\ exists m, parse V P q = Raise (QueryParserError m)).
Proof.
  intros HV. unfold parse, parser_parse, accepted. cbn [snd]. destruct (well_formed_dec q) as [Hw|Hw].
  - destruct (parse_body_wf (build_tree (e_penv V) (qp_cfg P)) V q HV Hw) as (t & Ht & ->).
    destruct (well_formed_outcome (e_penv V) (qp_cfg P) q t (proj2 Hw) Ht) as [(n & A & B & D)|(A & B)].
    + left. exists n. rewrite (build_tree_ok _ _ _ _ D). split; [auto|]. split; [exact A|]. split; [exists t; auto|reflexivity].
    + right. split; [tauto|]. destruct (build_tree_fails _ _ _ B) as (e & ->). apply handle_qp.
  - right. split; [tauto|]. destruct (parse_body_not_wf (build_tree (e_penv V) (qp_cfg P)) V q HV Hw) as (e & es & _ & ->).
    cbn. eauto.
Qed.

Lemma parse_ok_inv V P q r : env_ok V -> parse V P q = Ok r ->
  exists n, accepted V q /\ sp_query (e_penv V) (qp_cfg P) (tokens q) n /\
    r = with_locs (enableSourceLocations (qp_cfg P)) n.
Proof.
  intros HV H. destruct (parse_outcome V P q HV) as [(n & A & B & _ & D)|(_ & m & D)]; rewrite D in H; [|discriminate].
  injection H as <-. eauto.
Qed.
