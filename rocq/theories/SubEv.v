(** Every node of a built tree was built from a subtree of the derivation tree. *)
From Coq Require Import String.
From Verif Require Import Base Regex LexRules Lexer Grammar Antlr Ast Builder Parser LexSpec LitSpec LexThms
  GramSpec GramFacts ValueSpec ValueFacts SpellSpec BuilderFacts BuilderRules ParseSpec ParseFacts SimFacts SelFacts EvFacts TreeSpec TreeFacts.
Local Open Scope Z_scope.

(** The rule that makes a node. *)
Definition makes (r : rule) (p : payload) : bool :=
  match r, p with
  | query, PWithWithin | query_disjunction, PDisjunction | query_sequence, PSequence | expression_or, POr
  | expression_and, PAnd | query_group, PQGroup _ _ | query_simple, PSegment _ _ | query_implicit, PExpr _ _ _ _ _
  | query_segment, PWildcard | expression_group, PExprGroup | expression_not, PNot | expression_basic, PExpr _ _ _ _ _
  | within_part_simple, PSimpleWithin _ => true
  | _, _ => false
  end.

Section Sub.
  Variables (E : penv) (C : pcfg).
  Lemma evs_in ch : forall qs q, evs E C ch = Some qs -> In q qs -> exists c, In c ch /\ ev E C c = Some q.
  Proof.
    induction ch as [|c ch IH]; intros qs q H Hin; [injection H as <-; destruct Hin|]. destruct c as [k|r cc].
    - cbn [evs] in H. destruct (IH _ _ H Hin) as (c & Hc & Hev). exists c. split; [right; exact Hc|exact Hev].
    - change (evs E C (Node r cc :: ch)) with (if valueless r then evs E C ch else match ev E C (Node r cc), evs E C ch with Some n, Some ns => Some (n :: ns) | _, _ => None end) in H.
      destruct (valueless r).
      + destruct (IH _ _ H Hin) as (c & Hc & Hev). exists c. split; [right; exact Hc|exact Hev].
      + destruct (ev E C (Node r cc)) as [n|] eqn:Hn; [|discriminate]. destruct (evs E C ch) as [ns|] eqn:Hns; [|discriminate]. injection H as <-.
        destruct Hin as [<-|Hin]; [exists (Node r cc); split; [left; reflexivity|exact Hn]|].
        destruct (IH _ _ eq_refl Hin) as (c & Hc & Hev). exists c. split; [right; exact Hc|exact Hev].
  Qed.
  Lemma ev_cases r ch n : ev E C (Node r ch) = Some n ->
    (makes r (q_payload n) = true /\ forall c, In c (q_children n) -> exists t, In t ch /\ ev E C t = Some c) \/
    (exists t, In t ch /\ ev E C t = Some n).
  Proof.
    rewrite ev_eq. intros H. pose proof (evs_in ch) as Hin.
    assert (Hone : evs E C ch = Some [n] -> exists t, In t ch /\ ev E C t = Some n) by (intros Hx; apply (Hin _ n Hx); left; reflexivity).
    destruct r; cbn [ev_node] in H; try discriminate H.
    - destruct (find_rule within_part ch), (evs E C ch) as [[|a [|b [|]]]|] eqn:Hq; try discriminate H; injection H as <-; [left|right; auto].
      split; [reflexivity|]. intros c Hc. exact (Hin _ c eq_refl Hc).
    - destruct (evs E C ch) as [[|a [|]]|] eqn:Hq; try discriminate H. injection H as <-. right. auto.
    - destruct (evs E C ch) as [qs|] eqn:Hq; [|discriminate H]. injection H as <-. left. split; [reflexivity|]. intros c Hc. exact (Hin _ c eq_refl Hc).
    - destruct (evs E C ch) as [qs|] eqn:Hq; [|discriminate H]. injection H as <-. left. split; [reflexivity|]. intros c Hc. exact (Hin _ c eq_refl Hc).
    - destruct (evs E C ch) as [[|a [|]]|] eqn:Hq; try discriminate H. destruct (repetition E ch) as [[mn mx]|]; [|discriminate H]. injection H as <-. left. split; [reflexivity|]. intros c Hc. exact (Hin _ c eq_refl Hc).
    - destruct (evs E C ch) as [[|a [|]]|] eqn:Hq; try discriminate H. destruct (repetition E ch) as [[mn mx]|]; [|discriminate H]. injection H as <-. left. split; [reflexivity|]. intros c Hc. exact (Hin _ c eq_refl Hc).
    - destruct (ev_regexp E C ch) as [[v fl]|]; [|discriminate H]. injection H as <-. left. split; [reflexivity|]. intros c [].
    - destruct (List.length ch =? 2)%nat; [injection H as <-; left; split; [reflexivity|intros c []]|].
      destruct (evs E C ch) as [[|a [|]]|] eqn:Hq; try discriminate H. injection H as <-. right. auto.
    - destruct (evs E C ch) as [[|a [|]]|] eqn:Hq; try discriminate H. injection H as <-. right. auto.
    - destruct ch as [|c ch]; [discriminate H|]. destruct (within_scope (get_text c)); [|discriminate H]. injection H as <-. left. split; [reflexivity|intros ? []].
    - destruct (evs E C ch) as [[|a [|]]|] eqn:Hq; try discriminate H. injection H as <-. right. auto.
    - destruct (evs E C ch) as [qs|] eqn:Hq; [|discriminate H]. injection H as <-. left. split; [reflexivity|]. intros c Hc. exact (Hin _ c eq_refl Hc).
    - destruct (evs E C ch) as [qs|] eqn:Hq; [|discriminate H]. injection H as <-. left. split; [reflexivity|]. intros c Hc. exact (Hin _ c eq_refl Hc).
    - destruct (evs E C ch) as [[|a [|]]|] eqn:Hq; try discriminate H. injection H as <-. left. split; [reflexivity|]. intros c Hc. exact (Hin _ c eq_refl Hc).
    - destruct (evs E C ch) as [[|a [|]]|] eqn:Hq; try discriminate H. injection H as <-. left. split; [reflexivity|]. intros c Hc. exact (Hin _ c eq_refl Hc).
    - destruct (ev_attribute ch) as [[q i]|]; [|discriminate H]. destruct (ev_regexp E C ch) as [[v fl]|]; [|discriminate H]. injection H as <-. left. split; [reflexivity|intros ? []].
  Qed.
  Lemma sub_ev t : forall n m, ev E C t = Some n -> subnode m n ->
    exists r ch, subtree (Node r ch) t /\ ev E C (Node r ch) = Some m /\ makes r (q_payload m) = true.
  Proof.
    induction t as [k|r ch IH] using ptree_ind'; intros n m Hn Hm; [discriminate|]. rewrite Forall_forall in IH.
    destruct (ev_cases r ch n Hn) as [[Hmk Hch]|(t & Hin & Ht)].
    - destruct Hm as [|p l cs c Hc Hm]; [exists r, ch; split; [apply sbt_here|]; auto|].
      destruct (Hch c Hc) as (t & Hin & Ht). destruct (IH t Hin c m Ht Hm) as (r' & ch' & Hs & H). exists r', ch'. split; [eapply sbt_child; eassumption|exact H].
    - destruct (IH t Hin n m Ht Hm) as (r' & ch' & Hs & H). exists r', ch'. split; [eapply sbt_child; eassumption|exact H].
  Qed.
End Sub.

(** Every node of a parsed query: the subtree it was built from, and how prediction selected it. *)
Lemma parse_sub V P q n m : env_ok V -> parse V P q = Ok n -> subnode m n ->
  exists r ch m0 K pre ts rest, m = with_locs (enableSourceLocations (qp_cfg P)) m0 /\
    ev (e_penv V) (qp_cfg P) (Node r ch) = Some m0 /\ makes r (q_payload m0) = true /\
    (exists t, antlr_query (tokens q) = Some t /\ subtree (Node r ch) t) /\
    tokens q = pre ++ ts /\ selects (NT r) K ts [Node r ch] rest /\ viable K (types rest) /\ stack_ok K = true.
Proof.
  intros HV Hp Hm. destruct (parse_ev V P q n HV Hp) as (t & n0 & Ht & Hpt & Hl & Hev & Hs & ->).
  apply subnode_with_locs in Hm. destruct Hm as (m0 & Hm & ->). destruct (sub_ev _ _ t n0 m0 Hev Hm) as (r & ch & Hsub & Hm0 & Hmk).
  assert (Hc : conforms (tokens q)) by (exists t; auto).
  destruct (antlr_query_selects _ Hc) as (t' & Ht' & Hsel & _). rewrite Ht in Ht'. injection Ht' as <-.
  destruct (selects_inner _ _ _ _ _ Hsel viable_nil eq_refl r ch t (or_introl eq_refl) Hsub) as (K & pre & ts & rest & A & B & D & F).
  exists r, ch, m0, K, pre, ts, rest. split; [reflexivity|]. split; [exact Hm0|]. split; [exact Hmk|]. split; [eauto|]. auto.
Qed.
