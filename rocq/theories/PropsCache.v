(** C71: the tables shared by all lexers and parsers of a process never change a result. *)
From Coq Require Import String.
From Verif Require Import Base Regex LexRules Lexer Grammar Antlr Ast Builder Parser GenParser Atn AllStar ContextData Recover Cache CacheFacts Cached CachedFacts
  ParseSpec PropsParse PropsRead PropsRecover.
Local Open Scope nat_scope.

(** The calls of [QueryParser.parse] in a history, in the order in which they are started. *)
Definition calls_of (l : list pevent) : list (qparser * pystr) := flat_map (fun e => match e with PStart P q => [(P, q)] | _ => [] end) l.
Definition is_step_of (i : nat) (e : pevent) : bool := match e with PStep j => Nat.eqb i j | _ => false end.

Lemma started_calls E l : started dstate sym dname (list error_detail * res qnode) (map (to_event E) l) = map (fun c => parse_p E (fst c) (snd c)) (calls_of l).
Proof. unfold started, calls_of. induction l as [|[P q|i|i] l IH]; [reflexivity| | |]; cbn [map flat_map to_event app]; rewrite IH; reflexivity. Qed.
(** Whatever calls were made before, whatever other threads do at the same time, whatever calls were abandoned in the middle of anything:
    a call that ends returns (or raises) what it is specified to, and leaves the specified [.errors]. *)
Theorem C71_results : forall E l i P q es r, nth_error (calls_of l) i = Some (P, q) -> nth_error (process E l) i = Some (Finished _ _ _ _ (es, r)) ->
  r = parse (antlr_env E) P q /\ es = errors_after (antlr_env E) P q.
Proof.
  intros E l i P q es r Hc Hi. assert (Hs : nth_error (started dstate sym dname (list error_detail * res qnode) (map (to_event E) l)) i = Some (parse_p E P q)) by (rewrite started_calls, nth_error_map, Hc; reflexivity).
  pose proof (memo_right _ _ _ _ _ _ _ _ _ _ _ _ _ _ _ Hs Hi) as H. rewrite parse_eval in H. injection H as -> ->. auto.
Qed.
(** No call ever fails because of what it finds in the tables. *)
Theorem C71_unharmed : forall E l i, nth_error (process E l) i <> Some (Broken _ _ _ _).
Proof. intros E l i. apply memo_unbroken. Qed.

Lemma granted_app {St Sy Dn R} i : forall l1 n l2, granted St Sy Dn R i n (l1 ++ l2) = granted St Sy Dn R i n l1 + granted St Sy Dn R i (n + length (started _ _ _ _ l1)) l2.
Proof.
  induction l1 as [|x l1 IH]; intros n l2; [cbn; f_equal; lia|]. destruct x; cbn [app granted]; rewrite IH; unfold started; cbn [flat_map app length]; rewrite ?Nat.add_assoc; [|reflexivity|reflexivity].
  replace (S n + length (flat_map (fun e => match e with EStart _ _ _ _ p0 => [p0] | _ => [] end) l1)) with (n + S (length (flat_map (fun e => match e with EStart _ _ _ _ p0 => [p0] | _ => [] end) l1))) by lia. reflexivity.
Qed.
Lemma granted_count E i : forall l n, i < n -> granted dstate sym dname (list error_detail * res qnode) i n (map (to_event E) l) = length (filter (is_step_of i) l).
Proof.
  induction l as [|[P q|j|j] l IH]; intros n Hn; [reflexivity| | |]; cbn [map to_event granted filter is_step_of]; [apply IH; lia| |]; (assert (Hb : (i <? n) = true) by (apply Nat.ltb_lt; exact Hn)); rewrite Hb, IH by exact Hn; cbn [andb is_step]; [|reflexivity].
  destruct (i =? j); reflexivity.
Qed.
Lemma killed_event E i : forall l, nth_error (process E l) i = Some (Killed _ _ _ _) -> exists l1 l2, l = l1 ++ PKill i :: l2 /\ i < length (calls_of l1).
Proof.
  induction l as [|e l IH] using rev_ind; intros H.
  - destruct i; discriminate H.
  - unfold process, history in *. rewrite map_app, fold_left_app in H. cbn [map fold_left] in H.
    assert (HL : length (w_threads _ _ _ _ (fold_left (happen dstate sym dname _ dstate_dec sym_dec dname_dec dstart dstep dstop dkeeps) (map (to_event E) l) (fresh dstate sym dname (list error_detail * res qnode)))) = length (calls_of l)).
    { pose proof (wok_all dstate sym dname _ dstate_dec sym_dec dname_dec dstart dstep dstop dkeeps (map (to_event E) l)) as (_ & HL & _). unfold history in HL. rewrite HL, started_calls, map_length. reflexivity. }
    destruct (fold_left _ _ _) as [m ts] eqn:EF. cbn [w_threads] in *.
    assert (S1 : nth_error ts i = Some (Killed _ _ _ _) -> exists l1 l2, l ++ [e] = l1 ++ PKill i :: l2 /\ i < length (calls_of l1)).
    { intros Hx. destruct (IH Hx) as (l1 & l2 & -> & Hl). exists l1, (l2 ++ [e]). split; [rewrite <- app_assoc; reflexivity|exact Hl]. }
    destruct e as [P q|j|j]; cbn [to_event happen w_threads w_dfas] in H.
    + apply S1. destruct (Nat.lt_ge_cases i (length ts)) as [Hi|Hi]; [rewrite nth_error_app1 in H by exact Hi; exact H|]. rewrite nth_error_app2 in H by exact Hi. destruct (i - length ts) as [|[|n]]; discriminate H.
    + destruct (nth_error ts j) as [t|] eqn:Ej; [|cbn [w_threads] in H; apply S1; exact H]. destruct (tstep _ _ _ _ _ _ _ _ _ _ _ m t) as [m' t'] eqn:Et. cbn [w_threads] in H. rewrite set_thread_nth, Ej in H. destruct (Nat.eq_dec i j) as [->|]; [|apply S1; exact H].
      injection H as ->. destruct t as [[r|d w k]|d x k|r| |]; cbn [tstep] in Et; try (injection Et as _ Et; discriminate Et); [|apply S1; exact Ej]. destruct (sstep _ _ _ _ _ _ _ _ _ d (m d) x) as [m1 [x'|a|]]; injection Et as _ Et; discriminate Et.
    + destruct (nth_error ts j) as [[p|d x k|r| |]|] eqn:Ej; cbn [w_threads] in H; try (apply S1; exact H); rewrite set_thread_nth, Ej in H; (destruct (Nat.eq_dec i j) as [->|]; [|apply S1; exact H]);
        (exists l, []; split; [reflexivity|]; rewrite <- HL; apply nth_error_Some; congruence).
Qed.
Lemma C71_bounded E P q l1 l2 : let i := length (calls_of l1) in
  cost dstate sym dname (list error_detail * res qnode) dstart dstep dstop (parse_p E P q) <= length (filter (is_step_of i) l2) -> ~ In (PKill i) l2 ->
  nth_error (process E (l1 ++ PStart P q :: l2)) i = Some (Finished _ _ _ _ (errors_after (antlr_env E) P q, parse (antlr_env E) P q)).
Proof.
  intros i Hn Hk. set (l := l1 ++ PStart P q :: l2).
  assert (HC : nth_error (calls_of l) i = Some (P, q)) by (unfold l, calls_of; rewrite flat_map_app, nth_error_app2 by (unfold i; apply Nat.le_refl); unfold i, calls_of; rewrite Nat.sub_diag; reflexivity).
  assert (HS : nth_error (started dstate sym dname (list error_detail * res qnode) (map (to_event E) l)) i = Some (parse_p E P q)) by (rewrite started_calls, nth_error_map, HC; reflexivity).
  assert (HG : granted dstate sym dname (list error_detail * res qnode) i 0 (map (to_event E) l) >= length (filter (is_step_of i) l2)).
  { unfold l. rewrite map_app, granted_app, started_calls, map_length. cbn [map to_event granted]. rewrite (granted_count E i l2); [apply Nat.le_add_l|]. unfold i. cbn [Nat.add]. rewrite ?map_length. apply Nat.lt_succ_diag_r. }
  destruct (memo_progress dstate sym dname _ dstate_dec sym_dec dname_dec dstart dstep dstop dkeeps (map (to_event E) l) i (parse_p E P q) HS ltac:(lia)) as [H|H].
  - unfold process. rewrite parse_eval in H. exact H.
  - exfalso. destruct (killed_event E i l H) as (k1 & k2 & Hl & Hi). unfold l in Hl. clear H HG HS HC. revert k1 Hl Hi. unfold i in *. clear i.
    assert (G : forall k1 : list pevent, length (calls_of l1) < length (calls_of k1) -> l1 ++ PStart P q :: l2 = k1 ++ PKill (length (calls_of l1)) :: k2 -> In (PKill (length (calls_of l1))) l2).
    { clear Hn Hk. generalize (PKill (length (calls_of l1))) at 1 2. intros x k1 Hlt He. apply app_eq_app in He. destruct He as (z & [[H1 H2]|[H1 H2]]).
      - exfalso. rewrite H1 in Hlt. unfold calls_of in Hlt. rewrite flat_map_app, app_length in Hlt. lia.
      - destruct z as [|y z]; [exfalso; rewrite app_nil_r in H1; rewrite H1 in Hlt; lia|]. cbn [app] in H2. injection H2 as _ ->. apply in_or_app. right. left. reflexivity. }
    intros k1 Hl Hi. apply Hk. exact (G k1 Hi Hl).
Qed.
(** A call ends after a number of steps of its own that depends on its query only: others can neither block it nor slow it down. *)
Theorem C71_progress : forall E P q, exists N, forall l1 l2, let i := length (calls_of l1) in
  N <= length (filter (is_step_of i) l2) -> ~ In (PKill i) l2 ->
  nth_error (process E (l1 ++ PStart P q :: l2)) i = Some (Finished _ _ _ _ (errors_after (antlr_env E) P q, parse (antlr_env E) P q)).
Proof. intros E P q. exists (cost dstate sym dname (list error_detail * res qnode) dstart dstep dstop (parse_p E P q)). intros l1 l2. apply C71_bounded. Qed.
(** ** Witnesses *)
Definition env0 : penv := e_penv some_env.
Definition steps (n i : nat) : list pevent := repeat (PStep i) n.
Definition done (l : list pevent) : list bool := map (fun t => match t with Finished _ _ _ _ _ => true | _ => false end) (process env0 l).
(** The tables are in use: the second of two equal calls needs far fewer steps. *)
Example C71_used : done (PStart default_parser (u "'a'") :: steps 55 0) = [false] /\ done (PStart default_parser (u "'a'") :: steps 75 0 ++ PStart default_parser (u "'a'") :: steps 25 1) = [true; true].
Proof. vm_compute. split; reflexivity. Qed.
(** Two calls start on empty tables at the same time, a third one is abandoned on the way; all others end (with results by [C71_results]). *)
Example C71_witness :
  let l := [PStart default_parser (u "'a' | [x='b' & y='c']"); PStart default_parser (u "('a'"); PStart default_parser (u "'b")] ++
           flat_map (fun _ => [PStep 0; PStep 1; PStep 2]) (seq 0 7) ++ [PKill 2] ++ flat_map (fun _ => [PStep 1; PStep 0]) (seq 0 900) in
  done l = [true; true; false] /\ (exists n, parse (antlr_env env0) default_parser (u "'a' | [x='b' & y='c']") = Ok n) /\ (exists m, parse (antlr_env env0) default_parser (u "('a'") = Raise m).
Proof. vm_compute. split; [reflexivity|]. split; eexists; reflexivity. Qed.
Print Assumptions C71_results. Print Assumptions C71_unharmed. Print Assumptions C71_progress.
