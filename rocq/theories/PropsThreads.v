(** C59: one parser object, any number of calls at the same time, interrupted anywhere. *)
From Coq Require Import String.
From Verif Require Import Base Regex LexRules Lexer Grammar Antlr Ast Builder Parser LexSpec LitSpec GramSpec GramFacts ParseSpec ParseFacts PropsParse PropsConfig Threads.
Local Open Scope Z_scope.

Lemma set_nth_same {A} i (a x : A) l : nth_error l i = Some x -> nth_error (set_nth i a l) i = Some a.
Proof. unfold set_nth. revert i. induction l as [|y l IH]; intros [|i] H; try discriminate; cbn; [reflexivity|]. apply IH. exact H. Qed.
Lemma set_nth_other {A} i j (a : A) l : i <> j -> nth_error (set_nth i a l) j = nth_error l j.
Proof.
  unfold set_nth. revert i j. induction l as [|y l IH]; intros [|i] [|j] H; try congruence; cbn; try reflexivity. apply (IH i j). congruence.
Qed.
Lemma set_nth_cases {A} i j (a c : A) l : nth_error (set_nth i a l) j = Some c -> (i = j /\ c = a /\ exists x, nth_error l i = Some x) \/ nth_error l j = Some c.
Proof.
  intros H. destruct (Nat.eq_dec i j) as [<-|Hn]; [|right; rewrite set_nth_other in H by exact Hn; exact H].
  destruct (nth_error l i) as [x|] eqn:Hx; [left; rewrite (set_nth_same _ _ _ _ Hx) in H; injection H as <-; eauto|].
  exfalso. apply nth_error_None in Hx. unfold set_nth in H. rewrite firstn_all2, skipn_all2, app_nil_r in H by exact Hx. apply nth_error_None in Hx. congruence.
Qed.

(** ** The invariant *)
Section Inv.
  Variables (V : env) (P : qparser).
  Definition unexpected : exn := QueryParserError (u "an unexpected exception occured while parsing").
  Definition fine (q : pystr) (hit : bool) (o : outcome) : Prop :=
    match o with
    | Returned n => parse V P q = Ok n
    | Raised e => parse V P q = Raise e \/ hit = true /\ e = unexpected
    | Interrupted => hit = true
    end.
  Definition prefix (q : pystr) (hit : bool) (errs : list error_detail) : Prop :=
    exists rest, syntax_errors V q = errs ++ rest /\ (hit = false -> rest = []).
  Definition call_ok (c : call) : Prop :=
    let q := c_query c in
    match c_pc c with
    | PCall => c_hit c = false
    | PQuery errs todo => syntax_errors V q = errs ++ map (syntaxError q) todo /\ c_hit c = false
    | PBuild => syntax_errors V q = [] /\ c_hit c = false
    | PFinally errs o => prefix q (c_hit c) errs /\ fine q (c_hit c) o
    | PDone o => fine q (c_hit c) o
    end.
  Definition inv (w : world) : Prop :=
    qp_cfg (w_parser w) = qp_cfg P /\ (forall i c, nth_error (w_calls w) i = Some c -> call_ok c) /\
    match w_writer w with
    | None => qp_errors (w_parser w) = qp_errors P
    | Some i => exists c o, nth_error (w_calls w) i = Some c /\ c_pc c = PDone o /\ prefix (c_query c) (c_hit c) (qp_errors (w_parser w))
    end.
  Lemma parse_eq q : parse V P q = handle (parse_body (build_tree (e_penv V) (qp_cfg P)) V q).
  Proof. reflexivity. Qed.
  Lemma step_more C q errs c todo : step_call V C q (PQuery errs (c :: todo)) = (PQuery (errs ++ [syntaxError q c]) todo, None).
  Proof. destruct errs; reflexivity. Qed.
  Lemma step_ok C q p hit p' wr : C = qp_cfg P -> step_call V C q p = (p', wr) -> call_ok (mkCallSt q p hit) ->
    call_ok (mkCallSt q p' hit) /\ match wr with None => (forall o, p = PDone o -> p' = PDone o) | Some errs => prefix q hit errs /\ exists o, p' = PDone o end.
  Proof.
    intros -> Hs Hc. unfold call_ok in *. cbn [c_query c_pc c_hit] in *. destruct p as [|errs todo| |errs o|o]; cbn [step_call] in Hs.
    - injection Hs as <- <-. split; [|discriminate]. split; [reflexivity|exact Hc].
    - assert (Hcase : step_call V (qp_cfg P) q (PQuery errs todo) = (p', wr)) by exact Hs. clear Hs. destruct todo as [|c todo]; [destruct errs as [|e errs]|rewrite step_more in Hcase]; cbn in Hcase; injection Hcase as <- <-; destruct Hc as [Hc Hh]; (split; [|discriminate]).
      + split; [exact Hc|exact Hh].
      + cbn [map] in Hc. split; [exists []; split; [exact Hc|auto]|]. left. rewrite parse_eq. unfold parse_body. rewrite Hc. reflexivity.
      + split; [rewrite Hc, <- app_assoc; reflexivity|exact Hh].
    - injection Hs as <- <-. destruct Hc as [Hc Hh]. split; [|discriminate]. split; [exists []; auto|].
      assert (H : parse V P q = handle match antlr_query (tokens q) with Some t => build_tree (e_penv V) (qp_cfg P) t | None => Raise (QueryParserError (u "unable to parse query: ?")) end) by (rewrite parse_eq; unfold parse_body; rewrite Hc; reflexivity).
      enough (H' : fine q hit (outcome_of (parse V P q))) by (rewrite H in H'; exact H'). destruct (parse V P q) eqn:Hpq; cbn; rewrite ?Hpq; auto.
    - injection Hs as <- <-. destruct Hc as [H1 H2]. split; [exact H2|]. split; [exact H1|eauto].
    - injection Hs as <- <-. split; [exact Hc|]. intros o' H. exact H.
  Qed.
  Lemma writer_keep w i c c' (Hi : nth_error (w_calls w) i = Some c) : c_query c' = c_query c -> (forall o, c_pc c = PDone o -> c_pc c' = PDone o /\ c_hit c' = c_hit c) ->
    match w_writer w with
    | None => qp_errors (w_parser w) = qp_errors P
    | Some i => exists c o, nth_error (w_calls w) i = Some c /\ c_pc c = PDone o /\ prefix (c_query c) (c_hit c) (qp_errors (w_parser w))
    end ->
    match w_writer w with
    | None => qp_errors (w_parser w) = qp_errors P
    | Some j => exists c o, nth_error (set_nth i c' (w_calls w)) j = Some c /\ c_pc c = PDone o /\ prefix (c_query c) (c_hit c) (qp_errors (w_parser w))
    end.
  Proof.
    intros Hq Hk H. destruct (w_writer w) as [j|]; [|exact H]. destruct H as (d & o & Hd & Ho & Hp). destruct (Nat.eq_dec i j) as [<-|Hn].
    - rewrite Hi in Hd. injection Hd as <-. destruct (Hk o Ho) as [H1 H2]. exists c', o. rewrite (set_nth_same _ _ _ _ Hi), Hq, H2. auto.
    - exists d, o. rewrite set_nth_other by exact Hn. auto.
  Qed.
  Lemma exec_inv w a : inv w -> inv (exec V w a).
  Proof.
    intros (Hcfg & Hcalls & Hw). destruct a as [q|i|i|i]; cbn [exec].
    - split; [exact Hcfg|]. cbn [w_calls w_parser w_writer]. split.
      + intros i c Hi. destruct (le_lt_dec (List.length (w_calls w)) i) as [Hle|Hlt].
        * rewrite nth_error_app2 in Hi by exact Hle. destruct (i - List.length (w_calls w))%nat as [|k]; [injection Hi as <-; reflexivity|destruct k; discriminate].
        * rewrite nth_error_app1 in Hi by exact Hlt. eauto.
      + destruct (w_writer w) as [j|]; [|exact Hw]. destruct Hw as (c & o & Hc & H). exists c, o. split; [|exact H]. rewrite nth_error_app1; [exact Hc|]. apply nth_error_Some. congruence.
    - destruct (nth_error (w_calls w) i) as [c|] eqn:Hi; [|split; auto]. destruct (step_call V (qp_cfg (w_parser w)) (c_query c) (c_pc c)) as [p wr] eqn:Hs.
      destruct (step_ok _ _ _ (c_hit c) _ _ Hcfg Hs) as [Hok Hwr]; [destruct c; apply (Hcalls _ _ Hi)|].
      assert (HC : forall j d, nth_error (set_nth i (mkCallSt (c_query c) p (c_hit c)) (w_calls w)) j = Some d -> call_ok d).
      { intros j d Hd. apply set_nth_cases in Hd. destruct Hd as [(_ & -> & _)|Hd]; [exact Hok|eauto]. }
      destruct wr as [errs|]; (split; [exact Hcfg|]; cbn [w_calls w_parser w_writer]; split; [exact HC|]).
      + destruct Hwr as [Hpre (o & ->)]. exists (mkCallSt (c_query c) (PDone o) (c_hit c)), o. split; [eapply set_nth_same; exact Hi|]. split; [reflexivity|exact Hpre].
      + apply (writer_keep w i c (mkCallSt (c_query c) p (c_hit c)) Hi eq_refl); [|exact Hw]. intros o Ho. split; [apply Hwr; exact Ho|reflexivity].
    - destruct (nth_error (w_calls w) i) as [c|] eqn:Hi; [|split; auto]. pose proof (Hcalls _ _ Hi) as Hok.
      split; [exact Hcfg|]. cbn [w_calls w_parser w_writer]. split.
      + intros j d Hd. apply set_nth_cases in Hd. destruct Hd as [(_ & -> & _)|Hd]; [|eauto]. unfold call_ok in *. cbn [c_query c_pc c_hit]. destruct (c_pc c) as [|errs todo| |errs o|o]; cbn [interrupt_call fine]; auto.
        * split; [|reflexivity]. exists (map (syntaxError (c_query c)) todo). split; [apply Hok|discriminate].
        * split; [|reflexivity]. exists (syntax_errors V (c_query c)). split; [reflexivity|discriminate].
      + apply (writer_keep w i c); [exact Hi|reflexivity| |exact Hw]. intros o Ho. rewrite Ho. cbn. auto.
    - destruct (nth_error (w_calls w) i) as [c|] eqn:Hi; [|split; auto]. pose proof (Hcalls _ _ Hi) as Hok.
      split; [exact Hcfg|]. cbn [w_calls w_parser w_writer]. split.
      + intros j d Hd. apply set_nth_cases in Hd. destruct Hd as [(_ & -> & _)|Hd]; [|eauto]. unfold call_ok in *. cbn [c_query c_pc c_hit]. destruct (c_pc c) as [|errs todo| |errs o|o]; cbn [fault_call fine]; auto.
        * split; [|right; auto]. exists (map (syntaxError (c_query c)) todo). split; [apply Hok|discriminate].
        * split; [|right; auto]. exists (syntax_errors V (c_query c)). split; [reflexivity|discriminate].
      + apply (writer_keep w i c); [exact Hi|reflexivity| |exact Hw]. intros o Ho. rewrite Ho. cbn. auto.
  Qed.
  Lemma run_inv s : forall w, inv w -> inv (run V w s).
  Proof. induction s as [|a s IH]; intros w H; [exact H|]. cbn [run fold_left]. apply IH, exec_inv. exact H. Qed.
  Lemma idle_inv : inv (idle P).
  Proof. split; [reflexivity|]. split; [|reflexivity]. intros i c H. destruct i; discriminate. Qed.
End Inv.

(** ** C59 *)
(** Whatever runs at the same time and whatever fails: a tree that is returned is the tree of a parser used for that
    query alone; a call that was not hit itself ends as it would alone; one that was hit raises. *)
Theorem C59_results : forall V P s i c o, nth_error (w_calls (run V (idle P) s)) i = Some c -> c_pc c = PDone o ->
  match o with
  | Returned n => parse V P (c_query c) = Ok n
  | Raised e => parse V P (c_query c) = Raise e \/ c_hit c = true /\ e = QueryParserError (u "an unexpected exception occured while parsing")
  | Interrupted => c_hit c = true
  end.
Proof.
  intros V P s i c o Hi Ho. pose proof (run_inv V P s _ (idle_inv V P)) as (_ & H & _). specialize (H _ _ Hi). unfold call_ok in H. rewrite Ho in H. exact H.
Qed.
(** [.errors]: those of the call that finished last, complete unless that call was hit; settings do not change, so the parser is as good as new. *)
Theorem C59_errors : forall V P s, let w := run V (idle P) s in
  match w_writer w with
  | None => qp_errors (w_parser w) = qp_errors P
  | Some i => exists c o rest, nth_error (w_calls w) i = Some c /\ c_pc c = PDone o /\
      errors_after V P (c_query c) = qp_errors (w_parser w) ++ rest /\ (c_hit c = false -> rest = [])
  end.
Proof.
  intros V P s w. pose proof (run_inv V P s _ (idle_inv V P)) as (_ & _ & H). fold w in H. destruct (w_writer w) as [i|]; [|exact H].
  destruct H as (c & o & Hc & Ho & rest & Hr & Hh). exists c, o, rest. auto.
Qed.
Theorem C59_reuse : forall V P s q, parser_parse V (w_parser (run V (idle P) s)) q = parser_parse V (new_parser (qp_cfg P)) q.
Proof.
  intros V P s q. pose proof (run_inv V P s _ (idle_inv V P)) as (H & _ & _). unfold parser_parse. rewrite H. reflexivity.
Qed.

(** ** Progress: no call waits for another *)
Definition steps_of (i : nat) (s : list act) : nat := List.length (filter (fun a => match a with AStep j => Nat.eqb i j | _ => false end) s).
Definition left_of (V : env) (c : call) : nat :=
  match c_pc c with
  | PCall => List.length (listener_calls V (c_query c)) + 4
  | PQuery _ todo => List.length todo + 3
  | PBuild => 2 | PFinally _ _ => 1 | PDone _ => 0
  end%nat.
Lemma step_left V C q p hit p' wr : step_call V C q p = (p', wr) ->
  (left_of V (mkCallSt q p' hit) <= left_of V (mkCallSt q p hit) - 1)%nat.
Proof.
  intros H. unfold left_of. cbn [c_pc c_query]. destruct p as [|errs todo| |errs o|o].
  2: destruct todo as [|c todo]; [destruct errs as [|e errs]|rewrite step_more in H].
  all: cbn [step_call] in H; injection H as <- <-; cbn [List.length]; lia.
Qed.
Lemma exec_left V w a i c : nth_error (w_calls w) i = Some c -> exists c', nth_error (w_calls (exec V w a)) i = Some c' /\ c_query c' = c_query c /\
  (left_of V c' <= left_of V c - steps_of i [a])%nat.
Proof.
  intros Hi. unfold steps_of. destruct a as [q|j|j|j]; cbn [exec filter List.length].
  - exists c. cbn [w_calls]. rewrite nth_error_app1; [|apply nth_error_Some; congruence]. split; [exact Hi|]. split; [reflexivity|lia].
  - destruct (Nat.eqb i j) eqn:Hij; cbn [List.length].
    + apply Nat.eqb_eq in Hij as <-. rewrite Hi. destruct (step_call V (qp_cfg (w_parser w)) (c_query c) (c_pc c)) as [p wr] eqn:Hs.
      exists (mkCallSt (c_query c) p (c_hit c)). pose proof (step_left V _ _ _ (c_hit c) _ _ Hs) as Hl.
      destruct wr; cbn [w_calls]; (split; [eapply set_nth_same; exact Hi|]); (split; [reflexivity|]); destruct c; exact Hl.
    + apply Nat.eqb_neq in Hij. exists c. split; [|split; [reflexivity|lia]]. destruct (nth_error (w_calls w) j) as [d|]; [|exact Hi].
      destruct (step_call _ _ _ _) as [p wr]. destruct wr; cbn [w_calls]; rewrite set_nth_other by congruence; exact Hi.
  - destruct (Nat.eq_dec j i) as [->|Hij].
    + rewrite Hi. cbn [w_calls]. eexists. split; [eapply set_nth_same; exact Hi|]. split; [reflexivity|]. unfold left_of. cbn [c_pc c_query]. destruct (c_pc c); cbn; lia.
    + exists c. split; [|split; [reflexivity|lia]]. destruct (nth_error (w_calls w) j) as [d|]; [|exact Hi]. cbn [w_calls]. rewrite set_nth_other by exact Hij. exact Hi.
  - destruct (Nat.eq_dec j i) as [->|Hij].
    + rewrite Hi. cbn [w_calls]. eexists. split; [eapply set_nth_same; exact Hi|]. split; [reflexivity|]. unfold left_of. cbn [c_pc c_query]. destruct (c_pc c); cbn; lia.
    + exists c. split; [|split; [reflexivity|lia]]. destruct (nth_error (w_calls w) j) as [d|]; [|exact Hi]. cbn [w_calls]. rewrite set_nth_other by exact Hij. exact Hi.
Qed.
Lemma steps_of_cons i a s : steps_of i (a :: s) = (steps_of i [a] + steps_of i s)%nat.
Proof. unfold steps_of. cbn [filter]. destruct (match a with AStep j => Nat.eqb i j | _ => false end); reflexivity. Qed.
Lemma run_left V s : forall w i c, nth_error (w_calls w) i = Some c -> exists c', nth_error (w_calls (run V w s)) i = Some c' /\ c_query c' = c_query c /\
  (left_of V c' <= left_of V c - steps_of i s)%nat.
Proof.
  induction s as [|a s IH]; intros w i c Hi.
  - exists c. split; [exact Hi|]. split; [reflexivity|]. unfold steps_of. cbn. lia.
  - destruct (exec_left V w a i c Hi) as (c1 & H1 & Hq1 & Hl1). destruct (IH _ _ _ H1) as (c2 & H2 & Hq2 & Hl2).
    exists c2. split; [exact H2|]. split; [congruence|]. rewrite steps_of_cons. lia.
Qed.
(** However the calls are interleaved, a call ends after a number of its own steps that depends only on its query. *)
Theorem C59_progress : forall V P s s' i c, nth_error (w_calls (run V (idle P) s)) i = Some c ->
  (List.length (errors_after V P (c_query c)) + 4 <= steps_of i s')%nat ->
  exists c' o, nth_error (w_calls (run V (idle P) (s ++ s'))) i = Some c' /\ c_query c' = c_query c /\ c_pc c' = PDone o.
Proof.
  intros V P s s' i c Hi Hn. pose proof (run_inv V P s _ (idle_inv V P)) as (_ & Hinv & _). specialize (Hinv _ _ Hi).
  assert (Hl : (left_of V c <= List.length (errors_after V P (c_query c)) + 4)%nat).
  { unfold errors_after, parser_parse, left_of. cbn [fst qp_errors]. unfold call_ok in Hinv. destruct (c_pc c) as [|errs todo| |errs o|o]; try lia.
    - unfold syntax_errors. rewrite map_length. lia.
    - destruct Hinv as [Hinv _]. rewrite Hinv, app_length, map_length. lia. }
  destruct (run_left V s' _ _ _ Hi) as (c' & H1 & H2 & H3). unfold run in *. rewrite fold_left_app. assert (H4 : left_of V c' = 0%nat) by lia. clear H3 Hl Hn Hinv Hi.
  unfold left_of in H4. destruct (c_pc c') as [|errs todo| |errs o|o] eqn:Hp; try lia.
  exists c', o. auto.
Qed.
(** A call that runs alone to its end does what [parser_parse] says. *)
Theorem C59_alone : forall V P q n, (List.length (errors_after V P q) + 4 <= n)%nat ->
  let w := run V (idle P) (ANew q :: repeat (AStep 0) n) in
  w_parser w = fst (parser_parse V P q) /\
  exists c, w_calls w = [c] /\ c_query c = q /\ c_pc c = PDone (match snd (parser_parse V P q) with Ok t => Returned t | Raise e => Raised e end).
Proof.
  intros V P q n Hn w.
  assert (Hhit : forall m w0, (forall c, In c (w_calls w0) -> c_hit c = false) -> forall c, In c (w_calls (run V w0 (repeat (AStep 0) m))) -> c_hit c = false).
  { induction m as [|m IH]; intros w0 H0; [exact H0|]. cbn [repeat run fold_left]. apply IH. intros c Hc. cbn [exec] in Hc.
    destruct (nth_error (w_calls w0) 0) as [d|] eqn:Hd; [|apply H0; exact Hc]. destruct (step_call _ _ _ _) as [p wr].
    assert (Hc' : In c (set_nth 0 (mkCallSt (c_query d) p (c_hit d)) (w_calls w0))) by (destruct wr; exact Hc).
    apply In_nth_error in Hc'. destruct Hc' as (k & Hk). apply set_nth_cases in Hk. destruct Hk as [(_ & -> & _)|Hk]; [cbn; apply H0; eapply nth_error_In; exact Hd|].
    apply H0. eapply nth_error_In. exact Hk. }
  assert (Hlen : forall m w0, List.length (w_calls w0) = 1%nat -> List.length (w_calls (run V w0 (repeat (AStep 0) m))) = 1%nat).
  { induction m as [|m IH]; intros w0 H0; [exact H0|]. cbn [repeat run fold_left]. apply IH. destruct w0 as [P0 wr0 [|d [|d' l]]]; try discriminate. cbn. destruct (step_call _ _ _ _) as [p wr]. destruct wr; reflexivity. }
  assert (Hwr : forall m w0, w_writer w0 = None \/ w_writer w0 = Some 0%nat -> 
            ((exists c o, nth_error (w_calls w0) 0 = Some c /\ c_pc c = PDone o) -> w_writer w0 = Some 0%nat) ->
            (w_writer (run V w0 (repeat (AStep 0) m)) = None \/ w_writer (run V w0 (repeat (AStep 0) m)) = Some 0%nat) /\
            ((exists c o, nth_error (w_calls (run V w0 (repeat (AStep 0) m))) 0 = Some c /\ c_pc c = PDone o) -> w_writer (run V w0 (repeat (AStep 0) m)) = Some 0%nat)).
  { induction m as [|m IH]; intros w0 H0 H1; [auto|]. cbn [repeat run fold_left]. apply IH; cbn [exec]; destruct (nth_error (w_calls w0) 0) as [d|] eqn:Hd; auto.
    - destruct (step_call _ _ _ _) as [p [errs|]]; cbn [w_writer]; auto.
    - destruct (step_call _ _ _ _) as [p [errs|]] eqn:Hs; cbn [w_writer w_calls]; auto. intros (c & o & Hc & Ho).
      rewrite (set_nth_same _ _ _ _ Hd) in Hc. injection Hc as <-. cbn [c_pc] in Ho. subst p. apply H1.
      destruct (c_pc d) as [|errs todo| |errs o'|o'] eqn:Hpd; [discriminate| |discriminate|discriminate|eauto].
      exfalso. destruct todo as [|c todo]; [destruct errs|rewrite step_more in Hs]; discriminate.
    - rewrite <- Hd in H1. exact H1. }
  assert (Hone : nth_error (w_calls (run V (idle P) [ANew q])) 0 = Some (mkCallSt q PCall false)) by reflexivity.
  assert (Hst : steps_of 0 (repeat (AStep 0) n) = n) by (clear; unfold steps_of; induction n as [|n IH]; [reflexivity|cbn; f_equal; exact IH]).
  destruct (C59_progress V P [ANew q] (repeat (AStep 0) n) 0 _ Hone) as (c & o & Hc & Hq & Ho); [rewrite Hst; exact Hn|]. cbn [app] in Hc. cbn [c_query] in Hq.
  change (nth_error (w_calls w) 0 = Some c) in Hc.
  assert (Hh : c_hit c = false). { apply (Hhit n (run V (idle P) [ANew q])); [|eapply nth_error_In; exact Hc]. intros d [<-|[]]. reflexivity. }
  pose proof (C59_results V P _ 0 c o Hc Ho) as Hres. pose proof (C59_errors V P (ANew q :: repeat (AStep 0) n)) as Herr. cbn zeta in Herr. fold w in Herr.
  assert (Hww : w_writer w = Some 0%nat).
  { apply (Hwr n (run V (idle P) [ANew q])); [left; reflexivity| |exists c, o; auto]. intros (c0 & o0 & H & H'). injection H as <-. discriminate. }
  rewrite Hww in Herr. destruct Herr as (c' & o' & rest & Hc' & Ho' & He & Hrest). rewrite Hc in Hc'. injection Hc' as <-. rewrite (Hrest Hh), app_nil_r, Hq in He.
  pose proof (run_inv V P (ANew q :: repeat (AStep 0) n) _ (idle_inv V P)) as (Hcfg & _ & _). fold w in Hcfg. split.
  - destruct (w_parser w) as [cfg es]. cbn in *. subst. reflexivity.
  - exists c. pose proof (Hlen n (run V (idle P) [ANew q]) eq_refl) as Hl. fold (run V (run V (idle P) [ANew q]) (repeat (AStep 0) n)) in Hl.
    change (List.length (w_calls w) = 1%nat) in Hl. destruct (w_calls w) as [|d [|d' l]]; try discriminate. injection Hc as ->. split; [reflexivity|]. split; [exact Hq|].
    rewrite Ho. f_equal. rewrite Hq in Hres. fold (parse V P q). destruct o as [t|e|].
    + rewrite Hres. reflexivity.
    + destruct Hres as [->|[H _]]; [reflexivity|congruence].
    + congruence.
Qed.
(** What does not hold: that after a call returned, [.errors] are those of that call (as without concurrency, C27). *)
Theorem C59_refuted : ~ (forall V P s i c n, env_ok V -> nth_error (w_calls (run V (idle P) s)) i = Some c -> c_pc c = PDone (Returned n) ->
  qp_errors (w_parser (run V (idle P) s)) = errors_after V P (c_query c)).
Proof.
  intros H. destruct (parse some_env (new_parser (default_cfg false)) (u "'a'")) as [n|] eqn:Hp; [|vm_compute in Hp; discriminate].
  specialize (H some_env (new_parser (default_cfg false)) ([ANew (u "'a'"); ANew (u "[")] ++ repeat (AStep 0) 4 ++ repeat (AStep 1) 5) 0%nat (mkCallSt (u "'a'") (PDone (Returned n)) false) n some_env_ok).
  assert (Hn : Ok n = parse some_env (new_parser (default_cfg false)) (u "'a'")) by congruence. vm_compute in Hn. injection Hn as ->.
  specialize (H ltac:(vm_compute; reflexivity) eq_refl). vm_compute in H. discriminate.
Qed.
(** Two calls interleaved, one of them interrupted: the other one returns its tree. *)
Definition interleaved : list act := [ANew (u "["); AStep 0; ANew (u "'a' 'b'"); AStep 1; AStep 0; AStep 1; AInterrupt 0; AStep 1; AStep 0; AStep 1].
Example C59_witness : let w := run some_env (idle (new_parser (default_cfg false))) interleaved in
  map c_hit (w_calls w) = [true; false] /\ map c_query (w_calls w) = [u "["; u "'a' 'b'"] /\
  (exists n, map c_pc (w_calls w) = [PDone Interrupted; PDone (Returned n)]) /\ w_writer w = Some 1%nat /\ qp_errors (w_parser w) = [].
Proof. split; [vm_compute; reflexivity|]. split; [vm_compute; reflexivity|]. split; [|split; vm_compute; reflexivity]. eexists. vm_compute. reflexivity. Qed.
Example C59_witness_errors : let w := run some_env (idle (new_parser (default_cfg false))) [ANew (u "["); AStep 0; AFault 0; AStep 0] in
  map c_hit (w_calls w) = [true] /\ errors_after some_env (w_parser w) (u "[") <> qp_errors (w_parser w) /\ w_writer w = Some 0%nat.
Proof. vm_compute. split; [reflexivity|]. split; [discriminate|reflexivity]. Qed.
Print Assumptions C59_results. Print Assumptions C59_errors. Print Assumptions C59_reuse. Print Assumptions C59_progress. Print Assumptions C59_alone. Print Assumptions C59_refuted.
