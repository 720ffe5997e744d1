(** The generated parser with adaptive prediction. *)
From Verif Require Import Base LexRules Lexer Grammar Antlr GramSpec GenParser Atn AtnFacts AtnNets GenNet GenFacts GenPredict AllStar AllStarFacts AllStarLoop AllStarNet.
Local Open Scope Z_scope.

(** ** Synchronisation *)
Lemma ends_creach n : ends parser_atn n -> exists e, is_stop parser_atn e = true /\ creach parser_atn n [] e [].
Proof.
  induction 1 as [s Hs|s l t Hin Hl He (e & H1 & H2)|s q r pr t Hin Hq (e & H1 & H2) Ht (e' & H3 & H4)].
  - exists s. split; [apply is_stop_ok; exact Hs|apply cr_refl].
  - exists e. split; [exact H1|]. destruct l; try contradiction. eapply cr_eps; [exact Hin|exact H2].
  - exists e'. split; [exact H3|]. eapply cr_call; [exact Hin|]. eapply creach_trans; [exact (creach_lift _ _ _ _ _ [t] H2)|]. apply cr_ret; assumption.
Qed.
Lemma next_creach n x : next parser_atn n x -> exists s st l t, creach parser_atn n [] s st /\ In (l, t) (out parser_atn s) /\ sym parser_atn l x.
Proof.
  induction 1 as [s l t x Hin Hs|s l t x Hin Hl Hn (s' & st & l' & t' & H1 & H2)|s q r pr t x Hin Hn (s' & st & l' & t' & H1 & H2)|s q r pr t x Hin He Hn (s' & st & l' & t' & H1 & H2)].
  - exists s, [], l, t. split; [apply cr_refl|auto].
  - exists s', st, l', t'. split; [|exact H2]. destruct l; try contradiction. eapply cr_eps; [exact Hin|exact H1].
  - exists s', (st ++ [t]), l', t'. split; [|exact H2]. eapply cr_call; [exact Hin|]. exact (creach_lift _ _ _ _ _ [t] H1).
  - exists s', st, l', t'. split; [|exact H2]. destruct (ends_creach _ He) as (e & H3 & H4). eapply cr_call; [exact Hin|]. eapply creach_trans; [exact (creach_lift _ _ _ _ _ [t] H4)|]. apply cr_ret; assumption.
Qed.
Lemma sync_syncs : syncs parser_atn (sync_passes parser_atn).
Proof.
  intros n t [H|H]; unfold sync_passes; cbv zeta.
  - destruct (next_creach _ _ H) as (s & st & l & u & H1 & H2 & H3). apply orb_true_intro. left. apply orb_true_intro. left.
    apply existsb_exists. exists (s, st). split.
    + apply (proj1 (in_complete parser_atn net_stop net_depth n)); [|exact H1]. exists l, u. split; [exact H2|]. destruct l; cbn in H3; auto.
    + cbn [fst]. apply existsb_exists. exists (l, u). split; [exact H2|]. apply matches_ok. exact H3.
  - destruct (ends_creach _ H) as (e & H1 & H2). apply (proj2 (in_complete parser_atn net_stop net_depth n)) in H2; [|exact H1].
    destruct (snd (inner parser_atn depth n)) as [|e0 es]; [contradiction|]. rewrite orb_true_r. reflexivity.
Qed.

(** ** The contexts in which the rule methods predict *)
Fixpoint legitb (s : Z) (st : list Z) : bool :=
  match st with [] => match follows parser_atn s with [] => true | _ => false end | f :: st' => mem f (follows parser_atn s) && legitb f st' end.
Lemma legitb_ok st : forall s, legitb s st = true <-> legit parser_atn s st.
Proof.
  induction st as [|f st IH]; intros s; cbn [legitb legit].
  - destruct (follows parser_atn s); split; congruence.
  - rewrite andb_true_iff, mem_ok, IH. reflexivity.
Qed.
Fixpoint to_eofb (w : list ttype) : bool :=
  match w with [] => false | x :: w' => if ttype_eq_dec x EOF then match w' with [] => true | _ => false end else to_eofb w' end.
Lemma to_eofb_ok w : to_eofb w = true <-> to_eof w.
Proof.
  induction w as [|x w IH]; cbn [to_eofb to_eof]; [split; [discriminate|contradiction]|]. destruct (ttype_eq_dec x EOF) as [->|Hx].
  - destruct w; split; intros H; try reflexivity; try discriminate; [left; auto|]. destruct H as [[_ H]|[H _]]; [discriminate|contradiction].
  - rewrite IH. split; [intros H; right; auto|]. intros [[H _]|[_ H]]; [contradiction|exact H].
Qed.
(** The prediction of the runtime where the parser asks for it, and the least alternative elsewhere. *)
Definition hybrid (d : nat) (c : list Z) (w : list ttype) : option nat :=
  if forallb (fun t => legitb t (map (follow_of parser_atn) c)) (alternatives parser_atn d) && to_eofb w then adaptive parser_atn d c w else predictor d c w.
Lemma hybrid_predicts : predicts parser_atn hybrid.
Proof.
  split.
  - intros d c w i. unfold hybrid. destruct (_ && _); [apply net_range|apply (proj1 predictor_predicts)].
  - intros d c w i H. unfold hybrid. destruct (_ && _) eqn:E; [|apply (proj2 predictor_predicts); exact H]. apply andb_prop in E. destruct E as [E1 E2].
    apply net_adaptive; [|apply to_eofb_ok; exact E2|exact H]. rewrite forallb_forall in E1. intros t Ht. apply legitb_ok. exact (E1 t Ht).
Qed.
Definition rstart (r : rule) : Z := start_of parser_atn (rule_num r).
(** A rule method predicts for decisions of its own rule and calls from its own rule; EOF is matched in [query] only. *)
Fixpoint own (r0 : rule) (s : stm) : bool :=
  match s with
  | Match _ t => negb (ttype_eqb t EOF)
  | MatchSet _ x _ => negb (la_test x EOF)
  | Call n r => mem (follow_of parser_atn n) (follows parser_atn (rstart r)) && (rule_of parser_atn (follow_of parser_atn n) =? rule_of parser_atn (rstart r0)) && (if rule_eq_dec r query then false else true)
  | Seq a b => own r0 a && own r0 b
  | Switch _ l => forallb (fun c => own r0 (snd c)) l
  | IfLa _ _ s | DoLa _ s _ _ | LoopLa s _ _ => own r0 s
  | Pred _ d l => forallb (fun t => rule_of parser_atn t =? rule_of parser_atn (rstart r0)) (alternatives parser_atn d) && forallb (own r0) l
  | PredOpt _ d s | DoPred _ s _ d | LoopPred s _ d => forallb (fun t => rule_of parser_atn t =? rule_of parser_atn (rstart r0)) (alternatives parser_atn d) && own r0 s
  end.
Transparent parser_atn.
Lemma method_own r : (if rule_eq_dec r query then own query (Seq (Call 46 main_query) (IfLa 49 (la 18) (Seq (Match 47 WITHIN) (Call 48 within_part)))) else own r (method r)) = true.
Proof. destruct r; vm_compute; reflexivity. Qed.
Lemma query_top : follows parser_atn (rstart query) = [].
Proof. vm_compute. reflexivity. Qed.
Opaque parser_atn.

Section Run.
  Variable sy : Z -> ttype -> bool.
  Notation runa := (run (adaptive parser_atn) sy).
  Notation runh := (run hybrid sy).
  Definition at_rule (r0 : rule) (c : list Z) : Prop := legit parser_atn (rstart r0) (map (follow_of parser_atn) c).
  Lemma hybrid_here r0 d c ts : forallb (fun t => rule_of parser_atn t =? rule_of parser_atn (rstart r0)) (alternatives parser_atn d) = true -> at_rule r0 c -> to_eof (types_of ts) ->
    hybrid d c (types_of ts) = adaptive parser_atn d c (types_of ts).
  Proof.
    intros Hd Hc Ht. unfold hybrid. assert (E : forallb (fun t => legitb t (map (follow_of parser_atn) c)) (alternatives parser_atn d) && to_eofb (types_of ts) = true); [|rewrite E; reflexivity].
    apply andb_true_intro. split; [|apply to_eofb_ok; exact Ht]. apply forallb_forall. intros t Hi. rewrite forallb_forall in Hd. specialize (Hd t Hi). apply Z.eqb_eq in Hd. apply legitb_ok.
    eapply legit_rule; [symmetry; exact Hd|exact Hc].
  Qed.
  Lemma la_eof x k r : la_test x EOF = false -> la_test x (t_type k) = true -> to_eof (types_of (k :: r)) -> to_eof (types_of r).
  Proof.
    intros H1 H2 H. cbn [types_of map] in H. destruct (to_eof_cons _ _ H) as (_ & H3 & H4). fold (types_of r) in *. apply H4. intros E. rewrite (H3 E) in H2. congruence.
  Qed.
  Definition good (x : gres) : Prop := forall t r, x = GOk t r -> to_eof (types_of r).
  Lemma good_err : good GErr. Proof. intros t r H. discriminate. Qed.
  Lemma good_fuel : good GFuel. Proof. intros t r H. discriminate. Qed.
  Lemma good_nil ts : to_eof (types_of ts) -> good (GOk [] ts). Proof. intros H t r E. injection E as _ <-. exact H. Qed.
  Lemma good_then a k : good a -> (forall r, to_eof (types_of r) -> good (k r)) -> good (then_ a k).
  Proof.
    intros Ha Hk t r E. destruct a as [x r1| |]; cbn [then_] in E; try discriminate. specialize (Hk r1 (Ha _ _ eq_refl)). destruct (k r1) as [y r2| |]; try discriminate. injection E as _ <-. exact (Hk _ _ eq_refl).
  Qed.
  Lemma then_same a a' k k' : a = a' -> good a -> (forall r, to_eof (types_of r) -> k r = k' r) -> then_ a k = then_ a' k'.
  Proof. intros <- Ha Hk. destruct a as [x r| |]; try reflexivity. cbn [then_]. rewrite (Hk r (Ha _ _ eq_refl)). reflexivity. Qed.
  Lemma run_same f : forall s c ts r0, own r0 s = true -> at_rule r0 c -> to_eof (types_of ts) -> runh f s c ts = runa f s c ts /\ good (runa f s c ts).
  Proof.
    induction f as [|f IH]; intros s c ts r0 Ho Hc Ht; [split; [reflexivity|exact good_fuel]|].
    destruct s as [n t|n x l|n r|a b|n cases|n x s|n d l|n d s|n s m x|n s m d|s m x|s m d]; cbn [run].
    - split; [reflexivity|]. cbn [own] in Ho. destruct ts as [|k ts]; [exact good_err|]. destruct (ttype_eqb (t_type k) t) eqn:E; [|exact good_err]. intros x r H. injection H as _ <-.
      cbn [types_of map] in Ht. destruct (to_eof_cons _ _ Ht) as (_ & H3 & H4). fold (types_of ts) in *. apply H4. intros E0. rewrite (H3 E0) in E. rewrite negb_true_iff in Ho. revert Ho E. destruct t; discriminate.
    - split; [reflexivity|]. cbn [own] in Ho. apply negb_true_iff in Ho. destruct ts as [|k ts]; [exact good_err|]. destruct (la_test x (t_type k)) eqn:E; [|exact good_err]. intros y r H. injection H as _ <-. eapply la_eof; eassumption.
    - cbn [own] in Ho. apply andb_prop in Ho. destruct Ho as [Ho H3]. apply andb_prop in Ho. destruct Ho as [H1 H2]. apply mem_ok in H1. apply Z.eqb_eq in H2. pose proof (method_own r) as Hm. destruct (rule_eq_dec r query); [discriminate|].
      destruct (IH (method r) (n :: c) ts r Hm) as [E Hg]; [|exact Ht|].
      + unfold at_rule. cbn [map legit]. split; [exact H1|]. eapply legit_rule; [symmetry; exact H2|exact Hc].
      + rewrite E. split; [reflexivity|]. destruct (runa f (method r) (n :: c) ts) as [y r1| |]; [|exact good_err|exact good_fuel]. intros t0 r2 H. injection H as _ <-. exact (Hg _ _ eq_refl).
    - cbn [own] in Ho. apply andb_prop in Ho. destruct Ho as [H1 H2]. destruct (IH a c ts r0 H1 Hc Ht) as [E Hg]. split.
      + apply then_same; [exact E|rewrite E; exact Hg|]. intros r Hr. exact (proj1 (IH b c r r0 H2 Hc Hr)).
      + apply good_then; [exact Hg|]. intros r Hr. exact (proj2 (IH b c r r0 H2 Hc Hr)).
    - cbn [own] in Ho. rewrite forallb_forall in Ho. destruct (sy n (la1 ts)); [|split; [reflexivity|exact good_err]]. destruct (find _ cases) as [k|] eqn:E; [|split; [reflexivity|exact good_err]].
      apply find_some in E. exact (IH (snd k) c ts r0 (Ho k (proj1 E)) Hc Ht).
    - cbn [own] in Ho. destruct (sy n (la1 ts)); [|split; [reflexivity|exact good_err]]. destruct (la_test x (la1 ts)); [exact (IH s c ts r0 Ho Hc Ht)|]. split; [reflexivity|apply good_nil; exact Ht].
    - cbn [own] in Ho. apply andb_prop in Ho. destruct Ho as [H1 H2]. rewrite forallb_forall in H2. destruct (sy n (la1 ts)); [|split; [reflexivity|exact good_err]]. rewrite (hybrid_here r0 d c ts H1 Hc Ht).
      destruct (adaptive parser_atn d c (types_of ts)) as [[|i]|]; [split; [reflexivity|apply good_nil; exact Ht]| |split; [reflexivity|exact good_err]].
      destruct (nth_error l i) as [s|] eqn:E; [|split; [reflexivity|apply good_nil; exact Ht]]. apply nth_error_In in E. exact (IH s c ts r0 (H2 s E) Hc Ht).
    - cbn [own] in Ho. apply andb_prop in Ho. destruct Ho as [H1 H2]. destruct (sy n (la1 ts)); [|split; [reflexivity|exact good_err]]. rewrite (hybrid_here r0 d c ts H1 Hc Ht).
      destruct (adaptive parser_atn d c (types_of ts)) as [[|[|i]]|]; [split; [reflexivity|apply good_nil; exact Ht]|exact (IH s c ts r0 H2 Hc Ht)|split; [reflexivity|apply good_nil; exact Ht]|split; [reflexivity|exact good_err]].
    - destruct (sy n (la1 ts)); [|split; [reflexivity|exact good_err]]. exact (IH (LoopLa s m x) c ts r0 Ho Hc Ht).
    - destruct (sy n (la1 ts)); [|split; [reflexivity|exact good_err]]. exact (IH (LoopPred s m d) c ts r0 Ho Hc Ht).
    - pose proof Ho as Ho'. cbn [own] in Ho'. destruct (IH s c ts r0 Ho' Hc Ht) as [E Hg].
      assert (HK : forall r, to_eof (types_of r) -> (if sy m (la1 r) then if la_test x (la1 r) then runh f (LoopLa s m x) c r else GOk [] r else GErr) =
        (if sy m (la1 r) then if la_test x (la1 r) then runa f (LoopLa s m x) c r else GOk [] r else GErr) /\ good (if sy m (la1 r) then if la_test x (la1 r) then runa f (LoopLa s m x) c r else GOk [] r else GErr)).
      { intros r Hr. destruct (sy m (la1 r)); [|split; [reflexivity|exact good_err]]. destruct (la_test x (la1 r)); [exact (IH (LoopLa s m x) c r r0 Ho Hc Hr)|]. split; [reflexivity|apply good_nil; exact Hr]. }
      split; [apply then_same; [exact E|rewrite E; exact Hg|]|apply good_then; [exact Hg|]]; intros r Hr; apply HK; exact Hr.
    - pose proof Ho as Ho'. cbn [own] in Ho'. apply andb_prop in Ho'. destruct Ho' as [H1 H2]. destruct (IH s c ts r0 H2 Hc Ht) as [E Hg].
      assert (HK : forall r, to_eof (types_of r) ->
        (if sy m (la1 r) then match hybrid d c (types_of r) with Some 1%nat => runh f (LoopPred s m d) c r | Some _ => GOk [] r | None => GErr end else GErr) =
        (if sy m (la1 r) then match adaptive parser_atn d c (types_of r) with Some 1%nat => runa f (LoopPred s m d) c r | Some _ => GOk [] r | None => GErr end else GErr) /\
        good (if sy m (la1 r) then match adaptive parser_atn d c (types_of r) with Some 1%nat => runa f (LoopPred s m d) c r | Some _ => GOk [] r | None => GErr end else GErr)).
      { intros r Hr. destruct (sy m (la1 r)); [|split; [reflexivity|exact good_err]]. rewrite (hybrid_here r0 d c r H1 Hc Hr).
        destruct (adaptive parser_atn d c (types_of r)) as [[|[|i]]|]; [split; [reflexivity|apply good_nil; exact Hr]|exact (IH (LoopPred s m d) c r r0 Ho Hc Hr)|split; [reflexivity|apply good_nil; exact Hr]|split; [reflexivity|exact good_err]]. }
      split; [apply then_same; [exact E|rewrite E; exact Hg|]|apply good_then; [exact Hg|]]; intros r Hr; apply HK; exact Hr.
  Qed.
  Theorem gen_same ts : to_eof (types_of ts) -> gen_query hybrid sy ts = gen_query (adaptive parser_atn) sy ts.
  Proof.
    intros Ht. unfold gen_query. assert (Hc : at_rule query []) by exact query_top. pose proof (method_own query) as Ho. destruct (rule_eq_dec query query) as [_|N]; [|contradiction].
    cbn [own] in Ho. apply andb_prop in Ho. destruct Ho as [H1 H2].
    assert (HE : forall n, runh n (method query) [] ts = runa n (method query) [] ts); [|rewrite HE; reflexivity].
    intros [|n]; [reflexivity|]. cbn [method run].
    destruct (run_same n (Call 46 main_query) [] ts query H1 Hc Ht) as [E1 G1]. apply then_same; [exact E1|rewrite E1; exact G1|]. intros r Hr.
    destruct n as [|n]; [reflexivity|]. cbn [run]. destruct (run_same n (IfLa 49 (la 18) (Seq (Match 47 WITHIN) (Call 48 within_part))) [] r query H2 Hc Hr) as [E2 G2].
    apply then_same; [exact E2|rewrite E2; exact G2|]. intros r2 Hr2. destruct n; reflexivity.
  Qed.
End Run.
