(** Adaptive prediction in the network of FCSParser.py. *)
From Verif Require Import Base LexRules Lexer Grammar Antlr GenParser Atn AtnFacts AtnNets AllStar AllStarFacts AllStarLoop.
Local Open Scope Z_scope.

Definition states_ : list Z := map Z.of_nat (seq 0 (length (a_states parser_atn))).
Definition mem (x : Z) (l : list Z) : bool := existsb (Z.eqb x) l.
Lemma mem_ok x l : mem x l = true <-> In x l.
Proof. unfold mem. rewrite existsb_exists. split; [intros (y & H & E); apply Z.eqb_eq in E; subst; exact H|intros H; exists x; split; [exact H|apply Z.eqb_refl]]. Qed.

Lemma edges_ok : forallb (fun e => mem (fst e) states_ && (rule_of parser_atn (snd (snd e)) =? rule_of parser_atn (fst e)) &&
  match fst (snd e) with RuleT q r _ => rule_of parser_atn q =? r | _ => true end) (a_edges parser_atn) = true.
Proof. vm_compute. reflexivity. Qed.
Lemma stops_ok : forallb (fun s => if is_stop parser_atn s then Nat.eqb (length (out parser_atn s)) 0 else true) states_ = true.
Proof. vm_compute. reflexivity. Qed.
Lemma depth_ok : forallb (inner_ok parser_atn depth) states_ = true.
Proof. vm_compute. reflexivity. Qed.
Lemma chase_ok : forallb (fun e => negb (is_stop parser_atn e) || let c := chased parser_atn e in
  forallb (fun f => mem f c) (follows parser_atn e) &&
  forallb (fun t => forallb (fun e' => forallb (fun f => mem f c) (follows parser_atn e')) (snd (inner parser_atn depth t))) c) states_ = true.
Proof. vm_compute. reflexivity. Qed.
Lemma uniq_ok : length (filter (fun e => is_stop parser_atn e && match follows parser_atn e with [] => true | _ => false end) states_) = 1%nat.
Proof. vm_compute. reflexivity. Qed.
Opaque parser_atn.

Lemma in_states s : In s states_ <-> 0 <= s < Z.of_nat (length (a_states parser_atn)).
Proof.
  unfold states_. rewrite in_map_iff. split.
  - intros (n & <- & H). apply in_seq in H. lia.
  - intros H. exists (Z.to_nat s). split; [lia|]. apply in_seq. lia.
Qed.
Lemma stop_in s : is_stop parser_atn s = true -> In s states_.
Proof.
  unfold is_stop. intros H. apply andb_prop in H. destruct H as [H1 H2]. apply in_states. destruct (nth_error (a_states parser_atn) (Z.to_nat s)) eqn:E; [|discriminate].
  assert (Hn : nth_error (a_states parser_atn) (Z.to_nat s) <> None) by congruence. apply nth_error_Some in Hn. lia.
Qed.
Lemma out_edge s l t : In (l, t) (out parser_atn s) -> In (s, (l, t)) (a_edges parser_atn).
Proof.
  unfold out. intros H. apply in_map_iff in H. destruct H as ([s0 e] & E & H). cbn [snd] in E. subst e. apply filter_In in H. destruct H as [H E]. cbn [fst] in E. apply Z.eqb_eq in E. subst s0. exact H.
Qed.
Lemma net_stop s : is_stop parser_atn s = true -> out parser_atn s = [].
Proof.
  intros H. pose proof stops_ok as Ho. rewrite forallb_forall in Ho. specialize (Ho s (stop_in s H)). cbv beta in Ho. rewrite H in Ho. apply Nat.eqb_eq in Ho. destruct (out parser_atn s); [reflexivity|discriminate].
Qed.
Lemma net_out s : ~ In s states_ -> out parser_atn s = [].
Proof.
  intros H. destruct (out parser_atn s) as [|[l t] es] eqn:E; [reflexivity|]. exfalso. apply H. assert (Hi : In (l, t) (out parser_atn s)) by (rewrite E; left; reflexivity).
  apply out_edge in Hi. pose proof edges_ok as He. rewrite forallb_forall in He. specialize (He _ Hi). cbn [fst snd] in He. apply andb_prop in He. destruct He as [He _]. apply andb_prop in He. apply mem_ok. tauto.
Qed.
Lemma net_depth s : inner_ok parser_atn depth s = true.
Proof.
  destruct (in_dec Z.eq_dec s states_) as [Hi|Hn].
  - pose proof depth_ok as H. rewrite forallb_forall in H. apply H. exact Hi.
  - assert (HS : forall n, inner_ok parser_atn (S n) s = true) by (intros n; cbn [inner_ok]; rewrite (net_out s Hn); destruct (is_stop parser_atn s); reflexivity). apply (HS 99%nat).
Qed.
Lemma net_rule s l t : In (l, t) (out parser_atn s) -> rule_of parser_atn t = rule_of parser_atn s.
Proof.
  intros Hi. apply out_edge in Hi. pose proof edges_ok as He. rewrite forallb_forall in He. specialize (He _ Hi). cbn [fst snd] in He. apply andb_prop in He. destruct He as [He _]. apply andb_prop in He. apply Z.eqb_eq. tauto.
Qed.
Lemma net_call s q r pr t : In (RuleT q r pr, t) (out parser_atn s) -> rule_of parser_atn q = r.
Proof.
  intros Hi. apply out_edge in Hi. pose proof edges_ok as He. rewrite forallb_forall in He. specialize (He _ Hi). cbn [fst snd] in He. apply andb_prop in He. apply Z.eqb_eq. tauto.
Qed.
Lemma net_chase e : is_stop parser_atn e = true -> incl (follows parser_atn e) (chased parser_atn e) /\
  forall t e' f, In t (chased parser_atn e) -> In e' (snd (inner parser_atn depth t)) -> In f (follows parser_atn e') -> In f (chased parser_atn e).
Proof.
  intros H. pose proof chase_ok as Hc. rewrite forallb_forall in Hc. specialize (Hc e (stop_in e H)). cbv beta in Hc. rewrite H in Hc. cbn [negb orb] in Hc. cbv zeta in Hc. apply andb_prop in Hc. destruct Hc as [H1 H2]. split.
  - intros f Hf. rewrite forallb_forall in H1. apply mem_ok. exact (H1 f Hf).
  - intros t e' f Ht He Hf. rewrite forallb_forall in H2. specialize (H2 t Ht). cbv beta in H2. rewrite forallb_forall in H2. specialize (H2 e' He). cbv beta in H2. rewrite forallb_forall in H2. apply mem_ok. exact (H2 f Hf).
Qed.
Lemma net_uniq e e' : is_stop parser_atn e = true -> is_stop parser_atn e' = true -> follows parser_atn e = [] -> follows parser_atn e' = [] -> e = e'.
Proof.
  intros H1 H2 F1 F2. pose proof uniq_ok as Hu. set (g := fun e => _) in Hu.
  assert (I1 : In e (filter g states_)) by (apply filter_In; split; [apply stop_in; exact H1|unfold g; rewrite H1, F1; reflexivity]).
  assert (I2 : In e' (filter g states_)) by (apply filter_In; split; [apply stop_in; exact H2|unfold g; rewrite H2, F2; reflexivity]).
  destruct (filter g states_) as [|x [|]]; try discriminate. destruct I1 as [<-|[]], I2 as [<-|[]]. reflexivity.
Qed.
Theorem net_adaptive d c w i : (forall t, In t (alternatives parser_atn d) -> legit parser_atn t (map (follow_of parser_atn) c)) -> to_eof w ->
  least_alt parser_atn d c w i -> adaptive parser_atn d c w = Some i.
Proof. apply adaptive_ok; [exact net_stop|exact net_depth|exact net_rule|exact net_call|exact net_chase|exact net_uniq]. Qed.
Theorem net_range d c w i : adaptive parser_atn d c w = Some i -> (1 <= i <= length (alternatives parser_atn d))%nat.
Proof. apply adaptive_range. exact net_stop. Qed.
