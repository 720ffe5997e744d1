(** Prediction in the parser's network is decidable: a predictor that satisfies [predicts]. *)
From Verif Require Import Base LexRules Lexer Grammar Antlr GramSpec GramFacts LevelFacts SelFacts GenParser Atn AtnFacts AtnNets GenNet.
Local Open Scope Z_scope.

(** ** What is left to read in each state, up to the end of its rule *)
Fixpoint chk (A : atn) (n : nat) (K : list ebnf) (q : Z) : bool :=
  match K with
  | [] => stopb A q
  | e :: K' => match check A pbody psame false n (gof e) q with Some t => chk A n K' t | None => false end
  end.
Lemma chk_chain A n K : forall q, chk A n K q = true -> exists v, chain A pbody psame false (map gof K) q v /\ stop_state A v.
Proof.
  induction K as [|e K IH]; intros q H; cbn [chk] in H.
  - exists q. split; [constructor|apply stopb_ok; exact H].
  - destruct (check _ _ _ _ _ _ _) as [t|] eqn:E; [|discriminate]. destruct (IH _ H) as (v & Hc & Hv). exists v. split; [|exact Hv]. cbn [map]. eapply c_cons; [|exact Hc].
    eapply (proj1 (check_ok _ _ _ _ _)). exact E.
Qed.
Definition ebnf_eq (a b : ebnf) : {a = b} + {a <> b}.
Proof. decide equality; [apply (list_eq_dec ttype_eq_dec)|apply rule_eq_dec]. Defined.
Definition unfold_head (K : list ebnf) : list (list ebnf) :=
  match K with
  | [] => []
  | (Tk _ | NT _) :: K' => [K']
  | Sq a b :: K' => [a :: b :: K']
  | Al a b :: K' => [a :: K'; b :: K']
  | Op e :: K' => [e :: K'; K']
  | Pl e :: K' => [e :: St e :: K']
  | St e :: K' => [e :: St e :: K'; K']
  end.
Fixpoint closure (n : nat) (todo seen : list (list ebnf)) : list (list ebnf) :=
  match n with
  | O => seen
  | S n' =>
      match todo with
      | [] => seen
      | K :: todo' =>
          if in_dec (list_eq_dec ebnf_eq) K seen then closure n' todo' seen else closure n' (unfold_head K ++ todo') (K :: seen)
      end
  end.
Definition stacks : list (list ebnf) := flat_map (fun r => closure 200 [[body r]] []) rule_names.
Definition find_rest (q : Z) : option (list ebnf) := find (fun K => chk parser_atn 60 K (nm parser_atn q)) stacks.
Definition rests : list (option (list ebnf)) := Eval vm_compute in map (fun k => find_rest (Z.of_nat k)) (seq 0 (length (a_states parser_atn))).
Definition rest (q : Z) : option (list ebnf) := if q <? 0 then None else nth (Z.to_nat q) rests None.
Lemma rests_ok : forallb (fun k => match nth k rests None with Some K => chk parser_atn 60 K (nm parser_atn (Z.of_nat k)) && stack_ok K | None => negb (stopb parser_atn (Z.of_nat k)) && (Nat.eqb (length (out parser_atn (Z.of_nat k))) 0) end)
  (seq 0 (length (a_states parser_atn))) = true.
Proof. vm_compute. reflexivity. Qed.
Lemma sources : forallb (fun e => (0 <=? fst e) && (fst e <? Z.of_nat (length (a_states parser_atn)))) (a_edges parser_atn) = true.
Proof. vm_compute. reflexivity. Qed.
Lemma rests_len : length rests = length (a_states parser_atn).
Proof. vm_compute. reflexivity. Qed.
Opaque parser_atn.
Lemma rest_some q K : rest q = Some K -> (exists v, pchain (map gof K) q v /\ stop_state P v) /\ stack_ok K = true.
Proof.
  unfold rest. destruct (q <? 0) eqn:Hq; [discriminate|]. intros H. apply Z.ltb_ge in Hq.
  assert (Hl : (Z.to_nat q < length (a_states P))%nat).
  { rewrite <- rests_len. destruct (Nat.lt_ge_cases (Z.to_nat q) (length rests)) as [|Hge]; [assumption|]. rewrite nth_overflow in H by exact Hge. discriminate. }
  pose proof rests_ok as Hr. rewrite forallb_forall in Hr. specialize (Hr (Z.to_nat q) ltac:(apply in_seq; lia)). rewrite H, Z2Nat.id in Hr by lia. apply andb_prop in Hr. destruct Hr as [Hc Hs].
  split; [|exact Hs]. apply chk_chain in Hc. destruct Hc as (v & Hc & Hv). exists v. split; [|exact Hv]. clear -Hc. revert Hc. unfold nm. generalize 8%nat. intros n. revert q.
  induction n as [|n IH]; intros q H; [exact H|]. rewrite nrm_S in H. destruct (out P q) as [|[l t] [|]] eqn:Ho; try exact H. destruct (silentb l) eqn:Hl; [|exact H].
  eapply c_skip; [exact Ho|apply silentb_ok; exact Hl|auto].
Qed.
Lemma rest_none q : rest q = None -> out P q = [] /\ ~ stop_state P q.
Proof.
  unfold rest. intros H.
  assert (Hc : (q <? 0) = true \/ Z.of_nat (length (a_states P)) <= q \/ 0 <= q < Z.of_nat (length (a_states P)) /\ nth (Z.to_nat q) rests None = None) by (destruct (q <? 0) eqn:Hq; [auto|]; apply Z.ltb_ge in Hq; destruct (Z_le_gt_dec (Z.of_nat (length (a_states P))) q); [auto|right; right; split; [lia|exact H]]).
  clear H.
  assert (Ho : q < 0 \/ Z.of_nat (length (a_states P)) <= q -> out P q = [] /\ ~ stop_state P q).
  { intros Hq. split.
    - unfold out. destruct (filter _ _) as [|e l] eqn:Hf; [reflexivity|exfalso]. assert (Hin : In e (filter (fun e => fst e =? q) (a_edges P))) by (rewrite Hf; left; reflexivity).
      apply filter_In in Hin. destruct Hin as [Hin He]. pose proof sources as Hs. rewrite forallb_forall in Hs. specialize (Hs _ Hin). lia.
    - intros [H0 (s & Hs & _)]. assert (Hn : nth_error (a_states P) (Z.to_nat q) <> None) by congruence. apply nth_error_Some in Hn. lia. }
  destruct Hc as [Hc|[Hc|[Hb Hn]]]; [apply Ho; lia|apply Ho; lia|].
  pose proof rests_ok as Hr. rewrite forallb_forall in Hr. specialize (Hr (Z.to_nat q) ltac:(apply in_seq; lia)). rewrite Hn, Z2Nat.id in Hr by lia. apply andb_prop in Hr. destruct Hr as [H1 H2].
  split; [apply Nat.eqb_eq, length_zero_iff_nil in H2; exact H2|]. intros [H0 (s & Hs & Ht)]. unfold stopb in H1. rewrite Hs, Ht in H1. destruct (0 <=? q) eqn:E; [discriminate|lia].
Qed.

(** ** The decision procedure *)
Fixpoint rest_all (q : Z) (st : list Z) : option (list ebnf) :=
  match rest q, st with
  | Some K, [] => Some K
  | Some K, f :: st' => match rest_all f st' with Some K' => Some (K ++ K') | None => None end
  | None, _ => None
  end.
Definition reachb (q : Z) (st : list Z) (w : list ttype) : bool :=
  match rest_all q st with Some K => viableb (Z.to_nat (need K (length w))) K w | None => false end.
Lemma rest_all_some st : forall q K, rest_all q st = Some K -> pend K q st /\ stack_ok K = true.
Proof.
  induction st as [|f st IH]; intros q K H; cbn [rest_all] in H; destruct (rest q) as [K1|] eqn:Hq; try discriminate; destruct (rest_some _ _ Hq) as [(v & Hc & Hv) Hs].
  - injection H as <-. split; [econstructor; eassumption|exact Hs].
  - destruct (rest_all f st) as [K2|] eqn:Hf; [|discriminate]. injection H as <-. destruct (IH _ _ Hf) as [Hp Hs2]. split; [econstructor; eassumption|].
    unfold stack_ok. rewrite forallb_app. apply andb_true_intro. split; assumption.
Qed.
Lemma rest_all_none st : forall q, rest_all q st = None -> forall w, ~ segs q st w.
Proof.
  assert (Hdead : forall q x v, rest q = None -> ppath q x v -> ~ stop_state P v).
  { intros q x v Hq Hp Hv. destruct (rest_none _ Hq) as [Ho Hs]. inversion Hp as [|? ? ? ? ? Hin|? ? ? ? ? ? Hin|? ? ? ? ? ? ? ? ? Hin]; subst; [contradiction|rewrite Ho in Hin; destruct Hin..]. }
  induction st as [|f st IH]; intros q H w Hs; cbn [rest_all] in H; inversion Hs as [? x v Hp Hv|? x v ? ? w' Hp Hv Hw]; subst; destruct (rest q) as [K1|] eqn:Hq; try discriminate;
    try (eapply Hdead; eassumption). destruct (rest_all f st) eqn:Hf; [discriminate|]. eapply IH; eassumption.
Qed.
Theorem reachb_ok q st w : reachb q st w = true <-> reach P q st w.
Proof.
  unfold reachb. destruct (rest_all q st) as [K|] eqn:H.
  - destruct (rest_all_some _ _ _ H) as [Hp Hs]. rewrite (reach_viable _ _ _ Hp). apply viableb_spec; [exact Hs|lia].
  - split; [discriminate|]. intros Hr. apply reach_segs in Hr. destruct (rest_all_none _ _ H _ Hr).
Qed.

(** ** The least alternative *)
Fixpoint first_alt (i : nat) (l st : list Z) (w : list ttype) : option nat :=
  match l with
  | [] => None
  | t :: l' => if reachb t st w then Some i else first_alt (S i) l' st w
  end.
Definition predictor (d : nat) (c : list Z) (w : list ttype) : option nat := first_alt 1 (alternatives parser_atn d) (map (follow_of parser_atn) c) w.
Lemma first_alt_spec l st w : forall k i, first_alt k l st w = Some i <->
  (exists j t, nth_error l j = Some t /\ i = (k + j)%nat /\ reach P t st w /\ forall j' t', (j' < j)%nat -> nth_error l j' = Some t' -> ~ reach P t' st w).
Proof.
  induction l as [|t l IH]; intros k i; cbn [first_alt].
  - split; [discriminate|]. intros (j & t & H & _). destruct j; discriminate.
  - destruct (reachb t st w) eqn:Hb.
    + apply reachb_ok in Hb. split.
      * intros H. injection H as <-. exists O, t. split; [reflexivity|]. split; [lia|]. split; [exact Hb|]. intros j' t' Hj. lia.
      * intros (j & t' & Hn & -> & Hr & Hlt). destruct j as [|j]; [f_equal; lia|]. destruct (Hlt O t ltac:(lia) eq_refl Hb).
    + assert (Hnr : ~ reach P t st w) by (rewrite <- reachb_ok, Hb; discriminate). rewrite IH. split.
      * intros (j & t' & Hn & -> & Hr & Hlt). exists (S j), t'. split; [exact Hn|]. split; [lia|]. split; [exact Hr|]. intros [|j'] t'' Hj Hn'; [injection Hn' as <-; exact Hnr|]. apply (Hlt j'); [lia|exact Hn'].
      * intros (j & t' & Hn & -> & Hr & Hlt). destruct j as [|j]; [injection Hn as <-; contradiction|]. exists j, t'. split; [exact Hn|]. split; [lia|]. split; [exact Hr|].
        intros j' t'' Hj Hn'. apply (Hlt (S j') t''); [lia|exact Hn'].
Qed.
Theorem predictor_predicts : predicts parser_atn predictor.
Proof.
  split.
  - intros d c w i H. unfold predictor in H. apply first_alt_spec in H. destruct H as (j & t & Hn & -> & _). assert (Hl : nth_error (alternatives P d) j <> None) by congruence. apply nth_error_Some in Hl. lia.
  - intros d c w i [(t & Hn & Hi & Hr) Hlt]. unfold predictor. apply first_alt_spec. exists (i - 1)%nat, t. split; [exact Hn|]. split; [lia|]. split; [exact Hr|].
    intros j' t' Hj Hn'. apply (Hlt (S j') t'); [lia|]. cbn [Nat.sub]. rewrite Nat.sub_0_r. exact Hn'.
Qed.
