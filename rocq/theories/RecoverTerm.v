(** The parser ends, whatever the tokens are. *)
From Verif Require Import Base LexRules Lexer Grammar Antlr Parser GenParser Atn AllStar AllStarFacts AllStarLoop AllStarNet GenFacts Recover RecoverPred RecoverNeed.
Local Open Scope Z_scope.

Lemma good_method r : not_query r = true -> good (method r) = true.
Proof.
  intros H. assert (Hi : In r rule_names) by (destruct r; cbn; tauto). pose proof (proj1 (forallb_forall _ _) good_methods r Hi) as G. cbv beta in G. rewrite H in G. exact G.
Qed.
Lemma ns_len_eq : ns_len = 63%nat. Proof. vm_compute. reflexivity. Qed.
Opaque parser_atn need good ns_len.

(** ** The measure *)
Definition here (s : pst) : bool := match p_last s with Some i => Nat.eqb i (p_index s) | None => false end.
(** How many states may still raise an exception at this position without a token being consumed. *)
Definition left_ (s : pst) : nat := if here s then length (filter (fun n => negb (existsb (Z.eqb n) (p_states s))) ns) else ns_len.
Definition phi (s : pst) : nat := (length (p_rest s) * S ns_len + left_ s)%nat.
Definition wfp (s : pst) : Prop := to_eof (types_of (p_rest s)).
Definition step (s s' : pst) : Prop := (phi s' < phi s)%nat \/ p_rest s' = p_rest s /\ (phi s' <= phi s)%nat.

Lemma filter_len {X} (p : X -> bool) l : (length (filter p l) <= length l)%nat.
Proof. induction l as [|x l IH]; cbn; [lia|]. destruct (p x); cbn; lia. Qed.
Lemma left_le s : (left_ s <= ns_len)%nat.
Proof. unfold left_. destruct (here s); [|lia]. Transparent ns_len. unfold ns_len. Opaque ns_len. apply filter_len. Qed.
Lemma step_refl s : step s s. Proof. right. auto. Qed.
Lemma step_trans a b c : step a b -> step b c -> step a c.
Proof. intros [H|[H1 H2]] [H'|[H1' H2']]; [left; lia|left; lia|left; lia|right; split; [congruence|lia]]. Qed.
Lemma step_lt a b c : step a b -> (phi c < phi b)%nat -> (phi c < phi a)%nat.
Proof. intros [H|[H1 H2]] H'; lia. Qed.
Lemma lt_step a b c : (phi b < phi a)%nat -> step b c -> (phi c < phi a)%nat.
Proof. intros H [H'|[H1 H2]]; lia. Qed.
Lemma step_le a b : step a b -> (phi b <= phi a)%nat.
Proof. intros [H|[H1 H2]]; lia. Qed.
Lemma shorter s s' : (length (p_rest s') < length (p_rest s))%nat -> (phi s' < phi s)%nat.
Proof. intros H. unfold phi. pose proof (left_le s'). nia. Qed.

Lemma wfp_ne s : wfp s -> p_rest s <> [].
Proof. unfold wfp. destruct (p_rest s); [contradiction|discriminate]. Qed.
Lemma wfp_cases s : wfp s -> (exists k, p_rest s = [k] /\ t_type k = EOF) \/ (exists k k' r, p_rest s = k :: k' :: r /\ t_type k <> EOF /\ to_eof (types_of (k' :: r))).
Proof.
  unfold wfp. destruct (p_rest s) as [|k r]; [contradiction|]. intros [[E H]|[E H]]; [left; exists k; destruct r; [auto|discriminate]|right].
  destruct r as [|k' r]; [contradiction|]. exists k, k', r. auto.
Qed.
Lemma la1_eof s : wfp s -> (la1 (p_rest s) = EOF <-> length (p_rest s) = 1%nat).
Proof. intros H. destruct (wfp_cases s H) as [(k & -> & E)|(k & k' & r & -> & E & _)]; cbn; split; intros; try lia; try congruence. Qed.

(** ** Elementary steps *)
Lemma fetch_rest k s : p_rest (fetch k s) = p_rest s. Proof. reflexivity. Qed.
Lemma fetch_phi k s : phi (fetch k s) = phi s. Proof. reflexivity. Qed.
Lemma report_rest t m s : p_rest (report t m s) = p_rest s. Proof. unfold report. destruct (p_mode s); reflexivity. Qed.
Lemma report_phi t m s : phi (report t m s) = phi s. Proof. unfold report. destruct (p_mode s); reflexivity. Qed.
Lemma consume_eof s : la1 (p_rest s) = EOF -> wfp s -> consume s = s.
Proof. intros E H. destruct (wfp_cases s H) as [(k & Er & _)|(k & k' & r & Er & Ek & _)]; [unfold consume; rewrite Er; reflexivity|]. rewrite Er in E. contradiction. Qed.
Lemma consume_len s : wfp s -> la1 (p_rest s) <> EOF -> wfp (consume s) /\ length (p_rest s) = S (length (p_rest (consume s))).
Proof.
  intros H E. destruct (wfp_cases s H) as [(k & Er & Ek)|(k & k' & r & Er & Ek & Hr)]; [rewrite Er in E; contradiction|]. unfold consume, wfp. rewrite Er. cbn [fetch p_rest]. split; [exact Hr|reflexivity].
Qed.
Lemma consume_step s : wfp s -> wfp (consume s) /\ step s (consume s) /\ (la1 (p_rest s) <> EOF -> (phi (consume s) < phi s)%nat).
Proof.
  intros H. destruct (ttype_eq_dec (la1 (p_rest s)) EOF) as [E|E].
  - rewrite (consume_eof s E H). split; [exact H|]. split; [apply step_refl|contradiction].
  - destruct (consume_len s H E) as [H1 H2]. assert (HL : (phi (consume s) < phi s)%nat) by (apply shorter; lia). split; [exact H1|]. split; [left; exact HL|auto].
Qed.
Lemma match_step s : wfp s -> la1 (p_rest s) <> EOF -> wfp (consume (report_match s)) /\ (phi (consume (report_match s)) < phi s)%nat.
Proof. intros H E. destruct (consume_len (report_match s) H E) as [H1 H2]. split; [exact H1|]. apply shorter. cbn [report_match p_rest] in *. lia. Qed.
Lemma until_step stop k : forall s, wfp s -> wfp (until stop k s) /\ step s (until stop k s).
Proof.
  induction k as [|k IH]; intros s H; cbn [until]; [split; [exact H|apply step_refl]|]. destruct (_ || _); [split; [exact H|apply step_refl]|]. destruct (consume_step s H) as (H1 & H2 & _). destruct (IH _ H1) as [H3 H4].
  split; [exact H3|]. eapply step_trans; eassumption.
Qed.
Lemma error_rest e n c s : p_rest (report_error parser_atn e n c s) = p_rest s.
Proof. unfold report_error. destruct e; rewrite report_rest; [|reflexivity]. destruct (p_mode s); [reflexivity|]. destruct (t_type (lt_ 0 s)); reflexivity. Qed.
Lemma error_phi e n c s : phi (report_error parser_atn e n c s) = phi s.
Proof. unfold report_error. destruct e; rewrite report_phi; [|reflexivity]. destruct (p_mode s); [reflexivity|]. destruct (t_type (lt_ 0 s)); reflexivity. Qed.
Lemma filter_less n st : In n ns -> existsb (Z.eqb n) st = false -> (length (filter (fun m => negb (existsb (Z.eqb m) (n :: st))) ns) < length (filter (fun m => negb (existsb (Z.eqb m) st)) ns))%nat.
Proof.
  intros Hi Hn. generalize dependent ns. induction l as [|m l IH]; intros Hi; [contradiction|]. cbn [filter existsb]. 
  assert (HL : (length (filter (fun m => negb (existsb (Z.eqb m) (n :: st))) l) <= length (filter (fun m => negb (existsb (Z.eqb m) st)) l))%nat).
  { clear. induction l as [|m l IH]; [cbn; lia|]. cbn [filter existsb]. destruct (m =? n); cbn [orb negb]; destruct (existsb (Z.eqb m) st); cbn [negb length]; cbn [existsb] in IH; lia. }
  cbn [existsb] in HL, IH. destruct Hi as [->|Hi].
  - rewrite Z.eqb_refl, Hn. cbn [orb negb length]. lia.
  - specialize (IH Hi). destruct (m =? n); cbn [orb negb]; destruct (existsb (Z.eqb m) st); cbn [negb length]; lia.
Qed.
Lemma filter_more n st : (length (filter (fun m => negb (existsb (Z.eqb m) (n :: st))) ns) <= length (filter (fun m => negb (existsb (Z.eqb m) st)) ns))%nat.
Proof. generalize ns. induction l as [|m l IH]; [cbn; lia|]. cbn [filter existsb]. cbn [existsb] in IH. destruct (m =? n); cbn [orb negb]; destruct (existsb (Z.eqb m) st); cbn [negb length]; lia. Qed.
Lemma ns_all : ns_len = length (filter (fun m => negb (existsb (Z.eqb m) [])) ns).
Proof. Transparent ns_len. unfold ns_len. Opaque ns_len. generalize ns. induction l as [|m l IH]; [reflexivity|]. cbn. cbn in IH. f_equal. exact IH. Qed.
Lemma recover_step n c s : wfp s -> In n ns -> wfp (recover parser_atn n c s) /\ step s (recover parser_atn n c s) /\ (la1 (p_rest s) <> EOF -> (phi (recover parser_atn n c s) < phi s)%nat).
Proof.
  intros H Hn. unfold recover. set (again := match p_last s with Some i => _ | None => _ end).
  set (s1 := if again then consume s else s).
  assert (H1 : wfp s1 /\ step s s1 /\ (again = true -> la1 (p_rest s) <> EOF -> (phi s1 < phi s)%nat)).
  { unfold s1. destruct again; [destruct (consume_step s H) as (A & B & C); auto|split; [exact H|split; [apply step_refl|discriminate]]]. }
  destruct H1 as (H1 & H2 & H3).
  set (s2 := mkPst (p_index s1) (p_rest s1) (p_fetched s1) (p_mode s1) (Some (p_index s1)) (n :: p_states s1) (p_calls s1)).
  assert (E2 : left_ s2 = length (filter (fun m => negb (existsb (Z.eqb m) (n :: p_states s1))) ns)) by (unfold left_, here; cbn [s2 p_last p_index p_states]; rewrite Nat.eqb_refl; reflexivity).
  assert (H4 : (phi s2 <= phi s1)%nat /\ (again = false -> (phi s2 < phi s1)%nat)).
  { unfold phi. cbn [s2 p_rest]. fold s2. rewrite E2. unfold left_. split.
    - destruct (here s1); [pose proof (filter_more n (p_states s1)); lia|]. pose proof (filter_len (fun m => negb (existsb (Z.eqb m) (n :: p_states s1))) ns) as HL. pose proof ns_all as HA.
      Transparent ns_len. unfold ns_len. Opaque ns_len. lia.
    - intros Ea. unfold s1. rewrite Ea. destruct (here s) eqn:Eh.
      + assert (Hnot : existsb (Z.eqb n) (p_states s) = false). { unfold again, here in *. destruct (p_last s); [|discriminate]. rewrite Eh in Ea. exact Ea. } pose proof (filter_less n (p_states s) Hn Hnot). lia.
      + pose proof (filter_less n [] Hn eq_refl) as HL. rewrite <- ns_all in HL. assert (HM : (length (filter (fun m => negb (existsb (Z.eqb m) (n :: p_states s))) ns) <= length (filter (fun m => negb (existsb (Z.eqb m) [n])) ns))%nat).
        { clear. generalize ns. induction l as [|m l IH]; [cbn; lia|]. cbn [filter existsb]. cbn [existsb] in IH. destruct (m =? n); cbn [orb negb]; [exact IH|]. destruct (existsb (Z.eqb m) (p_states s)); cbn [negb length]; lia. }
        lia. }
  assert (H5 : step s s2). { apply (step_trans s s1); [exact H2|]. destruct H4 as [H4 _]. right. split; [reflexivity|exact H4]. }
  assert (H6 : la1 (p_rest s) <> EOF -> (phi s2 < phi s)%nat). { intros E. pose proof (step_le _ _ H2). destruct again; [specialize (H3 eq_refl E); lia|destruct H4 as [_ H4]; specialize (H4 eq_refl); lia]. }
  destruct (until_step (recovery_set parser_atn c) (length (p_rest s2)) s2 H1) as [H7 H8]. unfold consume_until. fold s2. split; [exact H7|]. split; [eapply step_trans; eassumption|].
  intros E. eapply lt_step; [apply H6; exact E|exact H8].
Qed.
Lemma lt1_eof s : wfp s -> la1 (p_rest s) = EOF -> t_type (lt_ 1 s) = EOF.
Proof. intros H E. destruct (wfp_cases s H) as [(k & Er & Ek)|(k & k' & r & Er & Ek & _)]; [unfold lt_; rewrite Er; cbn; exact Ek|]. rewrite Er in E. contradiction. Qed.
Lemma lt0 s : wfp s -> t_type (lt_ 0 s) = la1 (p_rest s).
Proof. intros H. unfold lt_. destruct (p_rest s) as [|k r] eqn:E; [destruct (wfp_ne s H E)|reflexivity]. Qed.
Lemma delete_step n c s : wfp s -> (la1 (p_rest s) = EOF -> expected parser_atn n c EOF = false) ->
  let '(s', b) := delete parser_atn n c s in if b then wfp s' /\ (phi s' < phi s)%nat else s' = fetch 2 s.
Proof.
  intros H HE. unfold delete. destruct (expected parser_atn n c (t_type (lt_ 1 (fetch 2 s)))) eqn:E; [|reflexivity].
  assert (Hne : la1 (p_rest s) <> EOF). { intros E0. assert (E1 : t_type (lt_ 1 (fetch 2 s)) = EOF) by (apply (lt1_eof (fetch 2 s)); assumption). rewrite E1, (HE E0) in E. discriminate. }
  set (s1 := report_unwanted parser_atn n c (fetch 2 s)). assert (Er : p_rest s1 = p_rest s) by (unfold s1, report_unwanted; rewrite report_rest; reflexivity).
  assert (H1 : wfp s1) by (unfold wfp; rewrite Er; exact H). destruct (consume_len s1 H1) as [H2 H3]; [rewrite Er; exact Hne|]. split; [exact H2|]. apply shorter. cbn [report_match p_rest]. rewrite <- Er. lia.
Qed.

Definition post (s : pst) (cn ce : bool) (r : rres) : Prop :=
  match r with
  | RNormal s' => wfp s' /\ step s s' /\ (cn = true -> (phi s' < phi s)%nat)
  | RExn s' m _ => wfp s' /\ step s s' /\ (ce = true -> (phi s' < phi s)%nat) /\ In m ns
  | RFuel => False
  end.
Lemma inline_step n c s : wfp s -> In n ns -> (la1 (p_rest s) = EOF -> expected parser_atn n c EOF = false) -> post s false false (recover_inline parser_atn n c s).
Proof.
  intros H Hn HE. unfold recover_inline. pose proof (delete_step n c s H HE) as HD. destruct (delete parser_atn n c s) as [s1 []].
  - destruct HD as [H1 H2]. destruct (consume_step s1 H1) as (H3 & H4 & _). cbn [post]. split; [exact H3|]. split; [left; eapply lt_step; eassumption|discriminate].
  - subst s1. clear HE. destruct (expected _ _ _ _); cbn [post].
    + split; [unfold wfp, report_missing; rewrite report_rest; exact H|]. split; [|discriminate]. right. unfold report_missing. rewrite report_rest, report_phi. split; [reflexivity|apply Nat.le_refl].
    + split; [exact H|]. split; [right; split; [reflexivity|apply Nat.le_refl]|]. split; [discriminate|exact Hn].
Qed.
Lemma mem_in n : mem n = true -> In n ns.
Proof. unfold mem. intros H. apply existsb_exists in H. destruct H as (m & H & E). apply Z.eqb_eq in E. subst. exact H. Qed.
(** [sync] goes on, at the same place or further, or raises where the next token does not pass. *)
Lemma sync_step n c s k : wfp s -> In n ns ->
  (exists s', wfp s' /\ step s s' /\ sync_ parser_atn n c s k = k s') \/
  (exists e, sync_ parser_atn n c s k = RExn (fetch 2 s) n e /\ next_has parser_atn n (la1 (p_rest s)) || next_eps parser_atn n = false).
Proof.
  intros H Hn. unfold sync_. destruct (p_mode s); [left; exists s; split; [exact H|split; [apply step_refl|reflexivity]]|].
  destruct (next_has parser_atn n (la1 (p_rest s)) || next_eps parser_atn n) eqn:E; [left; exists s; split; [exact H|split; [apply step_refl|reflexivity]]|].
  destruct (existsb _ [3; 4; 5; 10]).
  - assert (HE : la1 (p_rest s) = EOF -> expected parser_atn n c EOF = false). { intros E0. rewrite E0 in E. apply orb_false_elim in E. destruct E as [E1 E2]. unfold expected. rewrite E1, E2. reflexivity. }
    pose proof (delete_step n c s H HE) as HD. destruct (delete parser_atn n c s) as [s1 []].
    + destruct HD as [H1 H2]. left. exists s1. split; [exact H1|]. split; [left; exact H2|reflexivity].
    + subst s1. right. eexists. split; [reflexivity|reflexivity].
  - destruct (existsb _ [9; 11]); [|left; exists s; split; [exact H|split; [apply step_refl|reflexivity]]]. left. unfold consume_until. set (s1 := report_unwanted parser_atn n c s).
    assert (Er : p_rest s1 = p_rest s) by (apply report_rest). assert (Ep : phi s1 = phi s) by (apply report_phi). assert (H1 : wfp s1) by (unfold wfp; rewrite Er; exact H).
    destruct (until_step (fun t => expected parser_atn n c t || recovery_set parser_atn c t) (length (p_rest s1)) s1 H1) as [H2 H3]. eexists. split; [exact H2|]. split; [|reflexivity].
    eapply step_trans; [|exact H3]. right. split; [exact Er|rewrite Ep; apply Nat.le_refl].
Qed.

(** ** The main lemma *)
Lemma post_weak s cn ce cn' ce' r : (cn' = true -> cn = true) -> (ce' = true -> ce = true) -> post s cn ce r -> post s cn' ce' r.
Proof. intros H1 H2. destruct r as [s'|s' m e|]; cbn [post]; [| |auto]; intros (A & B & C); split; auto; split; auto. destruct C as [C D]. auto. Qed.
Lemma post_after s s1 cn ce cn' ce' r : step s s1 -> (cn' = true -> (phi s1 < phi s)%nat \/ cn = true) -> (ce' = true -> (phi s1 < phi s)%nat \/ ce = true) -> post s1 cn ce r -> post s cn' ce' r.
Proof.
  intros Hs H1 H2. destruct r as [s'|s' m e|]; cbn [post]; [| |auto]; intros (A & B & C); (split; [exact A|]); (split; [eapply step_trans; eassumption|]).
  - intros E. destruct (H1 E) as [H|H]; [eapply lt_step; eassumption|eapply step_lt; [exact Hs|apply C; exact H]].
  - destruct C as [C D]. split; [|exact D]. intros E. destruct (H2 E) as [H|H]; [eapply lt_step; eassumption|eapply step_lt; [exact Hs|apply C; exact H]].
Qed.
Lemma all_in t : In t all_ttypes. Proof. apply all_ttypes_all. Qed.
Lemma la1_in s : wfp s -> exists k r, p_rest s = k :: r /\ la1 (p_rest s) = t_type k.
Proof. intros H. destruct (p_rest s) as [|k r] eqn:E; [destruct (wfp_ne s H E)|]. exists k, r. auto. Qed.
Lemma chk_some x : chk x = true -> exists n c e, need 60 all_ttypes x = Some (n, c, e) /\ (n <= bnd)%nat.
Proof. unfold chk. destruct (need 60 all_ttypes x) as [[[n c] e]|]; [|discriminate]. intros H. exists n, c, e. split; [reflexivity|apply Nat.leb_le; exact H]. Qed.

Section Main.
  Variable f : nat.
  Definition goal_ (f : nat) (x : stm) : Prop := forall k G c s n cn ce, need k G x = Some (n, cn, ce) -> wfp s -> In (la1 (p_rest s)) G -> (bnd * phi s + n <= f)%nat ->
    post s cn ce (rrun parser_atn f x c s).
  (** Once there was progress, any statement can be run. *)
  Lemma after_progress x c s0 s cn ce : goal_ f x -> chk x = true -> (phi s < phi s0)%nat -> wfp s -> (bnd * phi s0 <= f)%nat -> post s0 cn ce (rrun parser_atn f x c s).
  Proof.
    intros HG Hc Hlt Hw Hf. destruct (chk_some x Hc) as (m & c2 & e2 & Hm & Hb).
    eapply post_after; [left; exact Hlt| | |apply (HG 60%nat all_ttypes c s m c2 e2 Hm Hw (all_in _)); unfold bnd in *; nia]; left; exact Hlt.
  Qed.
  (** After a step a statement can be run: at the same place within its guard, or anywhere once there was progress. *)
  Lemma after_step x k G c s0 s n cn ce cn' ce' : goal_ f x -> chk x = true ->
    step s0 s -> wfp s ->
    (p_rest s = p_rest s0 -> need k G x = Some (n, cn, ce) /\ In (la1 (p_rest s0)) G) ->
    (cn' = true -> (phi s < phi s0)%nat \/ cn = true) -> (ce' = true -> (phi s < phi s0)%nat \/ ce = true) ->
    (bnd * phi s0 + n <= f)%nat -> post s0 cn' ce' (rrun parser_atn f x c s).
  Proof.
    intros HG Hc Hs Hw HN H1 H2 Hf. destruct Hs as [Hlt|[Er Hle]].
    - destruct (chk_some x Hc) as (m & c2 & e2 & Hm & Hb). eapply post_after; [left; exact Hlt| | |apply (HG 60%nat all_ttypes c s m c2 e2 Hm Hw (all_in _)); unfold bnd in *; nia]; left; exact Hlt.
    - destruct (HN Er) as [HN1 HN2]. eapply post_after; [right; split; eassumption|exact H1|exact H2|]. apply (HG k G c s n cn ce HN1 Hw); [rewrite Er; exact HN2|nia].
  Qed.
End Main.
Lemma need_0 G x : need 0 G x = None. Proof. Transparent need. reflexivity. Opaque need. Qed.
Lemma need_S k G x : need (S k) G x = 
    match x with
    | Match _ t => let ok := forallb (ttype_eqb t) G && negb (ttype_eqb t EOF) in Some (1%nat, ok, ok)
    | MatchSet _ x _ => let ok := forallb (la_test x) G && negb (la_test x EOF) in Some (1%nat, ok, ok)
    | Call _ r => match need k G (method r) with Some (n, c, e) => Some (S n, c && (e || negb (existsb (ttype_eqb EOF) G)), true) | None => None end
    | Seq a b =>
        match need k G a with
        | Some (n, true, e) => Some (S n, true, e)
        | Some (n, false, e) => match need k G b with Some (n', c', e') => Some (S (Nat.max n n'), c', e && e') | None => None end
        | None => None
        end
    | Switch m cases =>
        match all_costs (map (fun q => let G' := filter (la_test (fst q)) G in if empty G' then Some (O, true, true) else need k G' (snd q)) cases) with
        | Some (n, c, e) => Some (S n, c, e && passes m G && forallb (fun t => existsb (fun q => la_test (fst q) t) cases) G)
        | None => None
        end
    | IfLa m x b =>
        let G' := filter (la_test x) G in
        if empty G' then Some (1%nat, empty G, passes m G)
        else match need k G' b with Some (n, c, e) => Some (S n, c && forallb (la_test x) G, e && passes m G) | None => None end
    | Pred m d l =>
        if Nat.eqb (length l) (length (alternatives parser_atn d)) then
          match all_costs (map (fun q => let G' := filter (alt_ok (fst q)) G in if empty G' then Some (O, true, true) else need k G' (snd q)) (combine (alternatives parser_atn d) l)) with
          | Some (n, c, e) => Some (S n, c, false)
          | None => None
          end
        else None
    | PredOpt m d b =>
        let G' := filter (alt_ok (hd 0 (alternatives parser_atn d))) G in
        if empty G' then Some (1%nat, false, false)
        else match need k G' b with Some (n, _, _) => Some (S n, false, false) | None => None end
    | DoLa m b m' x => match need k G (LoopLa b m' x) with Some (n, c, e) => Some (S n, c, e && passes m G) | None => None end
    | DoPred m b m' d => match need k G (LoopPred b m' d) with Some (n, c, e) => Some (S n, c, e && passes m G) | None => None end
    | LoopLa b m x =>
        match need k G b with
        | Some (n, true, e) => Some (S n, true, e)
        | Some (n, false, _) =>
            match need k (filter (la_test x) all_ttypes) b with Some (n', true, _) => Some (S (Nat.max n (S n')), false, false) | _ => None end
        | None => None
        end
    | LoopPred b m d =>
        match need k G b with
        | Some (n, true, e) => Some (S n, true, e)
        | Some (n, false, _) =>
            match need k (filter (alt_ok (hd 0 (alternatives parser_atn d))) all_ttypes) b with Some (n', true, _) => Some (S (Nat.max n (S n')), false, false) | _ => None end
        | None => None
        end
    end.
Proof. Transparent need. reflexivity. Opaque need. Qed.
Lemma all_costs_in l n c e y : all_costs l = Some (n, c, e) -> In y l -> exists n' c' e', y = Some (n', c', e') /\ (n' <= n)%nat /\ (c = true -> c' = true) /\ (e = true -> e' = true).
Proof.
  revert n c e. induction l as [|z l IH]; intros n c e H Hy; [contradiction|]. cbn [all_costs fold_right] in H. fold (all_costs l) in H. destruct z as [[[n1 c1] e1]|]; [|discriminate].
  destruct (all_costs l) as [[[n2 c2] e2]|] eqn:E; [|discriminate]. injection H as <- <- <-. destruct Hy as [<-|Hy].
  - exists n1, c1, e1. split; [reflexivity|]. split; [lia|]. split; intros H; apply andb_prop in H; tauto.
  - destruct (IH _ _ _ eq_refl Hy) as (n' & c' & e' & -> & H1 & H2 & H3). exists n', c', e'. split; [reflexivity|]. split; [lia|]. split; intros H; apply andb_prop in H; tauto.
Qed.
Lemma in_filter (p : ttype -> bool) G t : In t G -> p t = true -> In t (filter p G).
Proof. intros. apply filter_In. auto. Qed.
Lemma in_not_empty (G : list ttype) t : In t G -> empty G = false.
Proof. destruct G; [contradiction|reflexivity]. Qed.
Lemma good_inv x : good x = true -> chk x = true /\
  match x with
  | Match n t => negb (ttype_eqb t EOF) && negb (expected_eof n) && mem n = true
  | MatchSet n x _ => negb (la_test x EOF) && negb (expected_eof n) && mem n = true
  | Call _ r => not_query r = true
  | Seq a b => good a = true /\ good b = true
  | Switch n l => mem n = true /\ forallb (fun q => good (snd q)) l = true
  | IfLa n _ b => mem n = true /\ good b = true
  | PredOpt n d b => mem n = true /\ good b = true
  | Pred n _ l => mem n = true /\ forallb good l = true
  | DoLa n b m x => mem n = true /\ good (LoopLa b m x) = true
  | DoPred n b m d => mem n = true /\ good (LoopPred b m d) = true
  | LoopLa b m _ => mem m = true /\ good b = true
  | LoopPred b m _ => mem m = true /\ good b = true
  end.
Proof.
  Transparent good. destruct x; cbn [good]; intros H; apply andb_prop in H; destruct H as [H1 H2]; (split; [exact H1|]); try exact H2; try (apply andb_prop in H2; exact H2).
  all: apply andb_prop in H2; destruct H2 as [H2 H3]; apply andb_prop in H2; destruct H2 as [H2 H4]; apply andb_prop in H2; destruct H2 as [H2 H5]; split; [exact H2|]; rewrite H3, H4, H5; reflexivity.
  Opaque good.
Qed.
Lemma expected_no n c : expected_eof n = false -> expected parser_atn n c EOF = false.
Proof. unfold expected_eof, expected. intros H. apply orb_false_elim in H. destruct H as [-> ->]. reflexivity. Qed.
Lemma seq_bound b p n f : (b * p + S n <= S f -> b * p + n <= f)%nat. Proof. lia. Qed.
Lemma passes_in m G t : passes m G = true -> In t G -> next_has parser_atn m t || next_eps parser_atn m = true.
Proof. unfold passes. intros H Ht. exact (proj1 (forallb_forall _ _) H t Ht). Qed.
(** A prediction: one of the alternatives, or an exception. *)
Lemma predict_step n d c s k : wfp s -> 
  (exists i t s', p_rest s' = p_rest s /\ phi s' = phi s /\ predict_ parser_atn n d c s k = k i s' /\ (1 <= i)%nat /\ nth_error (alternatives parser_atn d) (i - 1) = Some t /\ alt_ok t (la1 (p_rest s)) = true) \/
  (exists s' e, p_rest s' = p_rest s /\ phi s' = phi s /\ predict_ parser_atn n d c s k = RExn s' n e).
Proof.
  intros H. unfold predict_. destruct (la1_in s H) as (k0 & r & Er & El). destruct (adaptive_predict parser_atn d c (types_of (p_rest s))) as [i|j] eqn:E; [left|right; exists (fetch (lookahead parser_atn d c (types_of (p_rest s))) s), (ENoViable j); split; [reflexivity|split; reflexivity]].
  assert (E' := E). rewrite Er in E'. cbn [types_of map] in E'. destruct (net_begins _ _ _ _ _ E') as (t & Ht & Hi & Hb). exists i, t, (fetch (lookahead parser_atn d c (types_of (p_rest s))) s). split; [reflexivity|]. split; [reflexivity|]. split; [reflexivity|]. split; [exact Hi|]. split; [exact Ht|]. rewrite El. exact Hb.
Qed.
Lemma same_wfp s s' : p_rest s' = p_rest s -> wfp s -> wfp s'. Proof. unfold wfp. intros ->. auto. Qed.
Lemma same_step s s1 s2 : step s s1 -> p_rest s2 = p_rest s1 -> phi s2 = phi s1 -> step s s2.
Proof. intros [H|[H1 H2]] Er Ep; [left; lia|right; split; [congruence|lia]]. Qed.
Lemma hd_nth (l : list Z) t : nth_error l (1 - 1) = Some t -> t = hd 0 l.
Proof. destruct l; cbn; congruence. Qed.

Lemma rrun_goal f : forall x, good x = true -> goal_ f x.
Proof.
  induction f as [|f IH]; intros x Hg k G c s n cn ce HN Hw HG Hf.
  { destruct k; [rewrite need_0 in HN; discriminate HN|]. exfalso. assert (n = O) by lia. subst n. rewrite need_S in HN. clear -HN.
    destruct x as [| | |a b|m l|m x b|m d l|m d b|m b m' x|m b m' d|b m x|b m d]; cbv zeta in HN.
    - discriminate.
    - discriminate.
    - destruct (need _ _ _) as [[[? ?] ?]|]; discriminate.
    - destruct (need _ _ a) as [[[? []] ?]|]; [discriminate| |discriminate]. destruct (need _ _ b) as [[[? ?] ?]|]; discriminate.
    - destruct (all_costs _) as [[[? ?] ?]|]; discriminate.
    - destruct (empty _); [discriminate|]. destruct (need _ _ _) as [[[? ?] ?]|]; discriminate.
    - destruct (Nat.eqb _ _); [|discriminate]. destruct (all_costs _) as [[[? ?] ?]|]; discriminate.
    - destruct (empty _); [discriminate|]. destruct (need _ _ _) as [[[? ?] ?]|]; discriminate.
    - destruct (need _ _ _) as [[[? ?] ?]|]; discriminate.
    - destruct (need _ _ _) as [[[? ?] ?]|]; discriminate.
    - destruct (need _ _ b) as [[[? []] ?]|]; [discriminate| |discriminate]. destruct (need _ _ b) as [[[? []] ?]|]; discriminate.
    - destruct (need _ _ b) as [[[? []] ?]|]; [discriminate| |discriminate]. destruct (need _ _ b) as [[[? []] ?]|]; discriminate. }
  destruct k as [|k]; [rewrite need_0 in HN; discriminate HN|]. rewrite need_S in HN. destruct (good_inv x Hg) as [Hchk Hin].
  destruct x as [m t|m x l|m r|a b|m l|m x b|m d l|m d b|m b m' x|m b m' d|b m x|b m d]; cbv zeta in HN; cbn [rrun].
  - (* Match *)
    injection HN as <- <- <-. apply andb_prop in Hin. destruct Hin as [Hin Hm]. apply andb_prop in Hin. destruct Hin as [Ht He]. apply negb_true_iff in He. apply negb_true_iff in Ht.
    destruct (ttype_eqb (la1 (p_rest s)) t) eqn:E.
    + assert (E' : la1 (p_rest s) = t) by (unfold ttype_eqb in E; destruct (ttype_eq_dec (la1 (p_rest s)) t); [assumption|discriminate]).
      assert (Hne : la1 (p_rest s) <> EOF) by (intros E0; rewrite E0 in E'; subst t; unfold ttype_eqb in Ht; destruct (ttype_eq_dec EOF EOF); [discriminate|contradiction]).
      destruct (match_step s Hw Hne) as [H1 H2]. cbn [post]. split; [exact H1|]. split; [left; exact H2|auto].
    + assert (EG : forallb (ttype_eqb t) G = false). { apply not_true_is_false. intros E0. pose proof (proj1 (forallb_forall _ _) E0 _ HG) as E1. unfold ttype_eqb in *. destruct (ttype_eq_dec t (la1 (p_rest s))) as [->|]; [|discriminate]. destruct (ttype_eq_dec (la1 (p_rest s)) (la1 (p_rest s))); [discriminate|contradiction]. }
      rewrite EG. cbn [andb]. apply inline_step; [exact Hw|apply mem_in; exact Hm|intros _; apply expected_no; exact He].
  - (* MatchSet *)
    injection HN as <- <- <-. apply andb_prop in Hin. destruct Hin as [Hin Hm]. apply andb_prop in Hin. destruct Hin as [Ht He]. apply negb_true_iff in He. apply negb_true_iff in Ht.
    destruct (la_test x (la1 (p_rest s))) eqn:E.
    + assert (Hne : la1 (p_rest s) <> EOF) by (intros E0; rewrite E0 in E; congruence).
      destruct (match_step s Hw Hne) as [H1 H2]. cbn [post]. split; [exact H1|]. split; [left; exact H2|auto].
    + assert (EG : forallb (la_test x) G = false). { apply not_true_is_false. intros E0. pose proof (proj1 (forallb_forall _ _) E0 _ HG) as E1. congruence. }
      rewrite EG. cbn [andb]. apply inline_step; [exact Hw|apply mem_in; exact Hm|intros _; apply expected_no; exact He].
  - (* Call *)
    destruct (need k G (method r)) as [[[n0 c0] e0]|] eqn:E; [|discriminate]. injection HN as <- <- <-.
    pose proof (IH (method r) (good_method r Hin) k G (m :: c) s n0 c0 e0 E Hw HG ltac:(lia)) as HP. destruct (rrun parser_atn f (method r) (m :: c) s) as [s'|s' m' e|]; cbn [caught post] in HP |- *; [| |contradiction].
    + destruct HP as (H1 & H2 & H3). split; [exact H1|]. split; [exact H2|]. intros Hc. apply andb_prop in Hc. tauto.
    + destruct HP as (H1 & H2 & H3 & H4). set (s1 := report_error parser_atn e m' (m :: c) s'). assert (Er : p_rest s1 = p_rest s') by apply error_rest. assert (Ep : phi s1 = phi s') by apply error_phi.
      destruct (recover_step m' (m :: c) s1 (same_wfp _ _ Er H1) H4) as (R1 & R2 & R3). assert (Hs1 : step s s1) by (eapply same_step; eassumption). split; [exact R1|]. split; [eapply step_trans; eassumption|].
      intros Hc. apply andb_prop in Hc. destruct Hc as [_ Hc]. destruct Hs1 as [Hlt|[Er1 Hle]]; [eapply lt_step; eassumption|]. apply orb_prop in Hc. destruct Hc as [Hc|Hc]; [specialize (H3 Hc); pose proof (step_le _ _ R2); lia|].
      assert (Hne : la1 (p_rest s1) <> EOF). { rewrite Er1. intros E0. rewrite E0 in HG. apply negb_true_iff in Hc. assert (Hx : existsb (ttype_eqb EOF) G = true) by (apply existsb_exists; exists EOF; split; [exact HG|reflexivity]). congruence. }
      specialize (R3 Hne). lia.
  - (* Seq *)
    destruct Hin as [Ga Gb]. destruct (need k G a) as [[[n0 c0] e0]|] eqn:E; [|discriminate].
    assert (HP : (bnd * phi s + n0 <= f)%nat -> post s c0 e0 (rrun parser_atn f a c s)) by (intros Hb; exact (IH a Ga k G c s n0 c0 e0 E Hw HG Hb)).
    destruct (good_inv b Gb) as [Cb _]. destruct c0.
    + injection HN as <- <- <-. specialize (HP ltac:(lia)). destruct (rrun parser_atn f a c s) as [s'|s' m' e|]; cbn [rthen post] in HP |- *; [|exact HP|exact HP].
      destruct HP as (H1 & H2 & H3). specialize (H3 eq_refl). apply after_progress; [apply IH; exact Gb|exact Cb|exact H3|exact H1|lia].
    + destruct (need k G b) as [[[n1 c1] e1]|] eqn:E1; [|discriminate]. injection HN as <- <- <-. specialize (HP ltac:(lia)). destruct (rrun parser_atn f a c s) as [s'|s' m' e|]; cbn [rthen post] in HP |- *; [| |exact HP].
      * destruct HP as (H1 & H2 & H3). apply (after_step f b k G c s s' n1 c1 e1); [apply IH; exact Gb|exact Cb|exact H2|exact H1|intros _; split; [exact E1|exact HG]|auto|intros He; apply andb_prop in He; tauto|lia].
      * destruct HP as (H1 & H2 & H3 & H4). split; [exact H1|]. split; [exact H2|]. split; [|exact H4]. intros He. apply andb_prop in He. tauto.
  - (* Switch *)
    destruct Hin as [Hm Gl]. destruct (all_costs _) as [[[n0 c0] e0]|] eqn:E; [|discriminate]. injection HN as <- <- <-.
    match goal with |- post _ _ _ (sync_ _ _ _ _ ?K) => destruct (sync_step m c s K Hw (mem_in _ Hm)) as [(s' & Hw' & Hs & ->)|(e & -> & Hp)] end.
    + destruct (find _ l) as [q|] eqn:Ef.
      * apply find_some in Ef. destruct Ef as [Hq Eq]. destruct q as [x b]. cbn [fst snd] in *. pose proof (proj1 (forallb_forall _ _) Gl _ Hq) as Gb. cbn [snd] in Gb. destruct (good_inv b Gb) as [Cb _].
        destruct (all_costs_in _ _ _ _ (let G' := filter (la_test x) G in if empty G' then Some (O, true, true) else need k G' b) E) as (n1 & c1 & e1 & E1 & L1 & L2 & L3); [apply in_map_iff; exists (x, b); split; [reflexivity|exact Hq]|]. cbv zeta in E1.
        apply (after_step f b k (filter (la_test x) G) c s s' n1 c1 e1); [apply IH; exact Gb|exact Cb|exact Hs|exact Hw'| |auto| |lia].
        -- intros Er. rewrite Er in Eq. pose proof (in_filter _ _ _ HG Eq) as HG'. rewrite (in_not_empty _ _ HG') in E1. auto.
        -- intros He. apply andb_prop in He. destruct He as [He _]. apply andb_prop in He. right. apply L3. tauto.
      * cbn [post]. split; [exact Hw'|]. split; [exact Hs|]. split; [|apply mem_in; exact Hm]. intros He. apply andb_prop in He. destruct He as [_ He]. destruct Hs as [Hlt|[Er _]]; [exact Hlt|]. exfalso.
        pose proof (proj1 (forallb_forall _ _) He _ HG) as Hx. apply existsb_exists in Hx. destruct Hx as (q & Hq & Eq). pose proof (find_none _ _ Ef q Hq) as Hno. cbv beta in Hno. rewrite Er in Hno. congruence.
    + cbn [post]. split; [exact Hw|]. split; [right; split; [reflexivity|apply Nat.le_refl]|]. split; [|apply mem_in; exact Hm]. intros He. exfalso. apply andb_prop in He. destruct He as [He _]. apply andb_prop in He. destruct He as [_ He].
      rewrite (passes_in _ _ _ He HG) in Hp. discriminate.
  - (* IfLa *)
    destruct Hin as [Hm Gb]. destruct (good_inv b Gb) as [Cb _].
    assert (HX : exists n1 c1 e1, (empty (filter (la_test x) G) = true \/ need k (filter (la_test x) G) b = Some (n1, c1, e1)) /\ (n1 < n)%nat /\ (cn = true -> c1 = true /\ forallb (la_test x) G = true) /\ (ce = true -> e1 = true /\ passes m G = true)).
    { destruct (empty (filter (la_test x) G)) eqn:Ee.
      - injection HN as <- <- <-. exists O, true, true. split; [auto|]. split; [lia|]. split; [|auto]. intros He. split; [reflexivity|]. destruct G; [reflexivity|discriminate].
      - destruct (need k (filter (la_test x) G) b) as [[[n1 c1] e1]|]; [|discriminate]. injection HN as <- <- <-. exists n1, c1, e1. split; [auto|]. split; [lia|]. split; intros H; apply andb_prop in H; exact H. }
    destruct HX as (n1 & c1 & e1 & HX & L1 & L2 & L3). clear HN.
    match goal with |- post _ _ _ (sync_ _ _ _ _ ?K) => destruct (sync_step m c s K Hw (mem_in _ Hm)) as [(s' & Hw' & Hs & ->)|(e & -> & Hp)] end.
    + destruct (la_test x (la1 (p_rest s'))) eqn:El.
      * apply (after_step f b k (filter (la_test x) G) c s s' n1 c1 e1); [apply IH; exact Gb|exact Cb|exact Hs|exact Hw'| |intros H; right; apply L2; exact H|intros H; right; apply L3; exact H|lia].
        intros Er. rewrite Er in El. pose proof (in_filter _ _ _ HG El) as HG'. split; [|exact HG']. destruct HX as [HX|HX]; [rewrite (in_not_empty _ _ HG') in HX; discriminate|exact HX].
      * cbn [post]. split; [exact Hw'|]. split; [exact Hs|]. intros H. destruct Hs as [Hlt|[Er _]]; [exact Hlt|]. exfalso. destruct (L2 H) as [_ H']. rewrite Er in El. rewrite (proj1 (forallb_forall _ _) H' _ HG) in El. discriminate.
    + cbn [post]. split; [exact Hw|]. split; [right; split; [reflexivity|apply Nat.le_refl]|]. split; [|apply mem_in; exact Hm]. intros He. exfalso. destruct (L3 He) as [_ H']. rewrite (passes_in _ _ _ H' HG) in Hp. discriminate.
  - (* Pred *)
    destruct Hin as [Hm Gl]. destruct (Nat.eqb (length l) _) eqn:En; [|discriminate]. apply Nat.eqb_eq in En. destruct (all_costs _) as [[[n0 c0] e0]|] eqn:E; [|discriminate]. injection HN as <- <- <-.
    match goal with |- post _ _ _ (sync_ _ _ _ _ ?K) => destruct (sync_step m c s K Hw (mem_in _ Hm)) as [(s' & Hw' & Hs & ->)|(e & -> & Hp)] end.
    + match goal with |- post _ _ _ (predict_ _ _ _ _ _ ?K) => destruct (predict_step m d c s' K Hw') as [(i & t & s2 & Er2 & Ep2 & -> & Hi & Ht & Ha)|(s2 & e & Er2 & Ep2 & ->)] end.
      * destruct i as [|i]; [lia|]. cbn [Nat.sub] in Ht. rewrite Nat.sub_0_r in Ht. assert (Hil : (i < length l)%nat) by (rewrite En; apply nth_error_Some; congruence).
        destruct (nth_error l i) as [b|] eqn:Eb; [|apply nth_error_None in Eb; lia].
        pose proof (proj1 (forallb_forall _ _) Gl _ (nth_error_In _ _ Eb)) as Gb. destruct (good_inv b Gb) as [Cb _].
        destruct (all_costs_in _ _ _ _ (let G' := filter (alt_ok t) G in if empty G' then Some (O, true, true) else need k G' b) E) as (n1 & c1 & e1 & E1 & L1 & L2 & L3).
        { apply in_map_iff. exists (t, b). split; [reflexivity|]. clear -Ht Eb. revert i Ht Eb. generalize (alternatives parser_atn d) as la. induction l as [|b0 l IH]; intros la i Ht Eb; [destruct i; discriminate|]. destruct la as [|t0 la]; [destruct i; discriminate|].
          destruct i as [|i]; cbn in *; [left; congruence|right; eapply IH; eassumption]. }
        cbv zeta in E1. apply (after_step f b k (filter (alt_ok t) G) c s s2 n1 c1 e1); [apply IH; exact Gb|exact Cb|eapply same_step; eassumption|eapply same_wfp; eassumption| |auto|discriminate|lia].
        intros Er. rewrite Er2 in Er. rewrite Er in Ha. pose proof (in_filter _ _ _ HG Ha) as HG'. rewrite (in_not_empty _ _ HG') in E1. auto.
      * cbn [post]. split; [eapply same_wfp; eassumption|]. split; [eapply same_step; eassumption|]. split; [discriminate|apply mem_in; exact Hm].
    + cbn [post]. split; [exact Hw|]. split; [right; split; [reflexivity|apply Nat.le_refl]|]. split; [discriminate|apply mem_in; exact Hm].
  - (* PredOpt *)
    destruct Hin as [Hm Gb]. destruct (good_inv b Gb) as [Cb _]. set (G1 := filter (alt_ok (hd 0 (alternatives parser_atn d))) G) in *.
    assert (HX : exists n1 c1 e1, (empty G1 = true \/ need k G1 b = Some (n1, c1, e1)) /\ (n1 < n)%nat /\ cn = false /\ ce = false).
    { destruct (empty G1) eqn:Ee.
      - injection HN as <- <- <-. exists O, true, true. split; [auto|]. split; [lia|]. auto.
      - destruct (need k G1 b) as [[[n1 c1] e1]|]; [|discriminate]. injection HN as <- <- <-. exists n1, c1, e1. split; [auto|]. split; [lia|]. auto. }
    destruct HX as (n1 & c1 & e1 & HX & L1 & -> & ->). clear HN.
    match goal with |- post _ _ _ (sync_ _ _ _ _ ?K) => destruct (sync_step m c s K Hw (mem_in _ Hm)) as [(s' & Hw' & Hs & ->)|(e & -> & Hp)] end.
    + match goal with |- post _ _ _ (predict_ _ _ _ _ _ ?K) => destruct (predict_step m d c s' K Hw') as [(i & t & s2 & Er2 & Ep2 & -> & Hi & Ht & Ha)|(s2 & e & Er2 & Ep2 & ->)] end.
      * destruct (Nat.eqb i 1) eqn:Ei.
        -- apply Nat.eqb_eq in Ei. subst i. apply hd_nth in Ht. subst t. apply (after_step f b k G1 c s s2 n1 c1 e1); [apply IH; exact Gb|exact Cb|eapply same_step; eassumption|eapply same_wfp; eassumption| |discriminate|discriminate|lia].
           intros Er. rewrite Er2 in Er. rewrite Er in Ha. pose proof (in_filter _ _ _ HG Ha) as HG'. split; [|exact HG']. destruct HX as [HX|HX]; [unfold G1 in HX; rewrite (in_not_empty _ _ HG') in HX; discriminate|exact HX].
        -- cbn [post]. split; [eapply same_wfp; eassumption|]. split; [eapply same_step; eassumption|discriminate].
      * cbn [post]. split; [eapply same_wfp; eassumption|]. split; [eapply same_step; eassumption|]. split; [discriminate|apply mem_in; exact Hm].
    + cbn [post]. split; [exact Hw|]. split; [right; split; [reflexivity|apply Nat.le_refl]|]. split; [discriminate|apply mem_in; exact Hm].
  - (* DoLa *)
    destruct Hin as [Hm Gb]. destruct (good_inv _ Gb) as [Cb _]. destruct (need k G _) as [[[n1 c1] e1]|] eqn:E; [|discriminate]. injection HN as <- <- <-.
    match goal with |- post _ _ _ (sync_ _ _ _ _ ?K) => destruct (sync_step m c s K Hw (mem_in _ Hm)) as [(s' & Hw' & Hs & ->)|(e & -> & Hp)] end.
    + apply (after_step f _ k G c s s' n1 c1 e1); [apply IH; exact Gb|exact Cb|exact Hs|exact Hw'|intros _; split; [exact E|exact HG]|auto|intros He; apply andb_prop in He; tauto|lia].
    + cbn [post]. split; [exact Hw|]. split; [right; split; [reflexivity|apply Nat.le_refl]|]. split; [|apply mem_in; exact Hm]. intros He. exfalso. apply andb_prop in He. destruct He as [_ He]. rewrite (passes_in _ _ _ He HG) in Hp. discriminate.
  - (* DoPred *)
    destruct Hin as [Hm Gb]. destruct (good_inv _ Gb) as [Cb _]. destruct (need k G _) as [[[n1 c1] e1]|] eqn:E; [|discriminate]. injection HN as <- <- <-.
    match goal with |- post _ _ _ (sync_ _ _ _ _ ?K) => destruct (sync_step m c s K Hw (mem_in _ Hm)) as [(s' & Hw' & Hs & ->)|(e & -> & Hp)] end.
    + apply (after_step f _ k G c s s' n1 c1 e1); [apply IH; exact Gb|exact Cb|exact Hs|exact Hw'|intros _; split; [exact E|exact HG]|auto|intros He; apply andb_prop in He; tauto|lia].
    + cbn [post]. split; [exact Hw|]. split; [right; split; [reflexivity|apply Nat.le_refl]|]. split; [|apply mem_in; exact Hm]. intros He. exfalso. apply andb_prop in He. destruct He as [_ He]. rewrite (passes_in _ _ _ He HG) in Hp. discriminate.
  - (* LoopLa *)
    assert (Gx := Hg). destruct Hin as [Hm Gb]. set (G1 := filter (la_test x) all_ttypes) in *.
    destruct (need k G b) as [[[n0 c0] e0]|] eqn:E; [|discriminate].
    assert (HX : (n0 < n)%nat /\ (cn = true -> c0 = true) /\ (ce = true -> c0 = true /\ ce = e0) /\ (c0 = true \/ exists n1 e1, need k G1 b = Some (n1, true, e1) /\ (S n1 < n)%nat)).
    { destruct c0; [injection HN as <- <- <-; split; [lia|]; auto|]. destruct (need k G1 b) as [[[n1 []] e1]|]; try discriminate. injection HN as <- <- <-. split; [lia|]. split; [discriminate|]. split; [discriminate|]. right. exists n1, e1. split; [reflexivity|lia]. }
    destruct HX as (L1 & L2 & L3 & L4). clear HN.
    pose proof (IH b Gb k G c s n0 c0 e0 E Hw HG ltac:(lia)) as HP. destruct (rrun parser_atn f b c s) as [s'|s' m' e|]; cbn [rthen post] in HP |- *; [| |exact HP].
    2:{ destruct HP as (H1 & H2 & H3 & H4). split; [exact H1|]. split; [exact H2|]. split; [|exact H4]. intros He. destruct (L3 He) as [_ ->]. auto. }
    destruct HP as (H1 & H2 & H3).
    match goal with |- post _ _ _ (sync_ _ _ _ _ ?K) => destruct (sync_step m c s' K H1 (mem_in _ Hm)) as [(s2 & Hw2 & Hs2 & ->)|(e & -> & Hp)] end.
    + assert (Hs : step s s2) by (eapply step_trans; eassumption). destruct (la_test x (la1 (p_rest s2))) eqn:El.
      * destruct L4 as [->|(n1 & e1 & E1 & L4)].
        -- apply after_progress; [apply IH; exact Gx|exact Hchk|eapply lt_step; [apply H3; reflexivity|exact Hs2]|exact Hw2|lia].
        -- destruct k as [|k]; [rewrite need_0 in E1; discriminate E1|].
           apply (after_step f (LoopLa b m x) (S (S k)) G1 c s s2 (S n1) true e1); [apply IH; exact Gx|exact Hchk|exact Hs|exact Hw2| |auto| |lia].
           ++ intros Er. rewrite need_S. fold G1. rewrite E1. split; [reflexivity|]. apply in_filter; [apply all_in|]. rewrite <- Er. exact El.
           ++ intros He. destruct (L3 He) as [L3' _]. left. eapply lt_step; [apply H3; exact L3'|exact Hs2].
      * cbn [post]. split; [exact Hw2|]. split; [exact Hs|]. intros Hc. eapply lt_step; [apply H3; auto|exact Hs2].
    + cbn [post]. split; [exact H1|]. split; [exact H2|]. split; [|apply mem_in; exact Hm]. intros He. destruct (L3 He) as [L3' _]. apply H3. exact L3'.
  - (* LoopPred *)
    assert (Gx := Hg). destruct Hin as [Hm Gb]. set (G1 := filter (alt_ok (hd 0 (alternatives parser_atn d))) all_ttypes) in *.
    destruct (need k G b) as [[[n0 c0] e0]|] eqn:E; [|discriminate].
    assert (HX : (n0 < n)%nat /\ (cn = true -> c0 = true) /\ (ce = true -> c0 = true /\ ce = e0) /\ (c0 = true \/ exists n1 e1, need k G1 b = Some (n1, true, e1) /\ (S n1 < n)%nat)).
    { destruct c0; [injection HN as <- <- <-; split; [lia|]; auto|]. destruct (need k G1 b) as [[[n1 []] e1]|]; try discriminate. injection HN as <- <- <-. split; [lia|]. split; [discriminate|]. split; [discriminate|]. right. exists n1, e1. split; [reflexivity|lia]. }
    destruct HX as (L1 & L2 & L3 & L4). clear HN.
    pose proof (IH b Gb k G c s n0 c0 e0 E Hw HG ltac:(lia)) as HP. destruct (rrun parser_atn f b c s) as [s'|s' m' e|]; cbn [rthen post] in HP |- *; [| |exact HP].
    2:{ destruct HP as (H1 & H2 & H3 & H4). split; [exact H1|]. split; [exact H2|]. split; [|exact H4]. intros He. destruct (L3 He) as [_ ->]. auto. }
    destruct HP as (H1 & H2 & H3).
    match goal with |- post _ _ _ (sync_ _ _ _ _ ?K) => destruct (sync_step m c s' K H1 (mem_in _ Hm)) as [(s2 & Hw2 & Hs2 & ->)|(e & -> & Hp)] end.
    + assert (Hs : step s s2) by (eapply step_trans; eassumption).
      match goal with |- post _ _ _ (predict_ _ _ _ _ _ ?K) => destruct (predict_step m d c s2 K Hw2) as [(i & t & s3 & Er3 & Ep3 & -> & Hi & Ht & Ha)|(s3 & e & Er3 & Ep3 & ->)] end.
      * assert (Hw3 : wfp s3) by (eapply same_wfp; eassumption). assert (Hs3 : step s s3) by (eapply same_step; eassumption). assert (Hs3' : step s' s3) by (eapply same_step; eassumption). destruct (Nat.eqb i 1) eqn:Ei.
        -- apply Nat.eqb_eq in Ei. subst i. apply hd_nth in Ht. subst t. destruct L4 as [->|(n1 & e1 & E1 & L4)].
           ++ apply after_progress; [apply IH; exact Gx|exact Hchk|eapply lt_step; [apply H3; reflexivity|exact Hs3']|exact Hw3|lia].
           ++ destruct k as [|k]; [rewrite need_0 in E1; discriminate E1|].
              apply (after_step f (LoopPred b m d) (S (S k)) G1 c s s3 (S n1) true e1); [apply IH; exact Gx|exact Hchk|exact Hs3|exact Hw3| |auto| |lia].
              ** intros Er. rewrite need_S. fold G1. rewrite E1. split; [reflexivity|]. apply in_filter; [apply all_in|]. rewrite <- Er, Er3. exact Ha.
              ** intros He. destruct (L3 He) as [L3' _]. left. eapply lt_step; [apply H3; exact L3'|exact Hs3'].
        -- cbn [post]. split; [exact Hw3|]. split; [exact Hs3|]. intros Hc. eapply lt_step; [apply H3; auto|exact Hs3'].
      * cbn [post]. split; [eapply same_wfp; eassumption|]. split; [eapply same_step; eassumption|]. split; [|apply mem_in; exact Hm]. intros He. destruct (L3 He) as [L3' _]. eapply lt_step; [apply H3; exact L3'|eapply same_step; eassumption].
    + cbn [post]. split; [exact H1|]. split; [exact H2|]. split; [|apply mem_in; exact Hm]. intros He. destruct (L3 He) as [L3' _]. apply H3. exact L3'.
Qed.

(** ** [parser.query()] *)
Definition at_eof (s : pst) : Prop := wfp s /\ la1 (p_rest s) = EOF.
Lemma until_eof k : forall s, wfp s -> (length (p_rest s) <= k)%nat -> at_eof (until (recovery_set parser_atn []) k s).
Proof.
  induction k as [|k IH]; intros s H Hk; [destruct (p_rest s) eqn:E; [destruct (wfp_ne s H E)|cbn in Hk; lia]|]. cbn [until recovery_set existsb]. rewrite orb_false_r. 
  destruct (ttype_eqb (la1 (p_rest s)) EOF) eqn:E; unfold ttype_eqb in E; destruct (ttype_eq_dec (la1 (p_rest s)) EOF) as [E'|E']; try discriminate; [split; assumption|].
  destruct (consume_len s H E') as [H1 H2]. apply IH; [exact H1|lia].
Qed.
Lemma recover_eof n s : wfp s -> at_eof (recover parser_atn n [] s).
Proof.
  intros H. unfold recover. set (again := match p_last s with Some i => _ | None => _ end). set (s1 := if again then consume s else s).
  assert (H1 : wfp s1) by (unfold s1; destruct again; [apply consume_step; exact H|exact H]). unfold consume_until. apply until_eof; [exact H1|apply Nat.le_refl].
Qed.
Lemma expects_51 : next_eps parser_atn 51 = false /\ forallb (fun t => Bool.eqb (next_has parser_atn 51 t) (ttype_eqb t EOF)) all_ttypes = true /\
  next_has parser_atn (follow_of parser_atn 51) EOF = false /\ forallb (fun t => negb (next_has parser_atn (follow_of parser_atn 51) t)) all_ttypes = true.
Proof. vm_compute. auto. Qed.
Lemma expected_51 t : expected parser_atn 51 [] t = true -> t = EOF.
Proof.
  unfold expected. destruct expects_51 as (-> & H & _). cbn [andb]. rewrite orb_false_r. pose proof (proj1 (forallb_forall _ _) H t (all_in t)) as E. apply Bool.eqb_prop in E. rewrite E. unfold ttype_eqb. destruct (ttype_eq_dec t EOF); [auto|discriminate].
Qed.
Lemma expected_end t : expected parser_atn (follow_of parser_atn 51) [] t = true -> t = EOF.
Proof.
  unfold expected. destruct expects_51 as (_ & _ & _ & H). pose proof (proj1 (forallb_forall _ _) H t (all_in t)) as E. apply negb_true_iff in E. rewrite E. cbn [orb after_rule]. destruct (next_eps _ _); [|discriminate]. unfold ttype_eqb. destruct (ttype_eq_dec t EOF); [auto|discriminate].
Qed.
Lemma delete_rest n c s s' : delete parser_atn n c s = (s', true) -> p_rest s' = p_rest (consume s).
Proof.
  unfold delete. destruct (expected _ _ _ _); [|discriminate]. intros E. injection E as <-. cbn [report_match p_rest]. unfold consume, report_unwanted. rewrite report_rest. cbn [fetch p_rest]. destruct (p_rest s) as [|a [|b r]]; [rewrite report_rest; reflexivity|rewrite report_rest; reflexivity|reflexivity].
Qed.
Opaque expected next_has next_eps.
Lemma match_last n f s : (forall t, expected parser_atn n [] t = true -> t = EOF) -> (forall t, expected parser_atn (follow_of parser_atn n) [] t = true -> t = EOF) -> wfp s -> (1 <= f)%nat ->
  match rrun parser_atn f (Match n EOF) [] s with RNormal s' => at_eof s' | RExn s' m e => wfp s' | RFuel => False end.
Proof.
  intros X1 X2 H Hf. destruct f as [|f]; [lia|]. cbn [rrun]. destruct (ttype_eqb (la1 (p_rest s)) EOF) eqn:E; unfold ttype_eqb in E; destruct (ttype_eq_dec (la1 (p_rest s)) EOF) as [E'|E']; try discriminate.
  - rewrite (consume_eof (report_match s) E' H). split; [exact H|exact E'].
  - assert (HE : la1 (p_rest s) = EOF -> expected parser_atn n [] EOF = false) by (intros E0; contradiction).
    unfold recover_inline. pose proof (delete_step n [] s H HE) as HD. destruct (delete parser_atn n [] s) as [s1 b] eqn:Ed. destruct b.
    + destruct HD as [H1 _]. assert (HL : t_type (lt_ 1 s) = EOF). { unfold delete in Ed. destruct (expected parser_atn n [] (t_type (lt_ 1 (fetch 2 s)))) eqn:Ex; [|discriminate]. apply X1 in Ex. exact Ex. }
      apply delete_rest in Ed. assert (He : la1 (p_rest s1) = EOF). { rewrite Ed. destruct (wfp_cases s H) as [(k & Er & Ek)|(k & k' & r & Er & Ek & _)]; [rewrite Er in E'; contradiction|]. unfold lt_ in HL. rewrite Er in HL. cbn [nth] in HL. unfold consume. rewrite Er. exact HL. }
      rewrite (consume_eof s1 He H1). split; assumption.
    + subst s1. destruct (expected parser_atn (follow_of parser_atn n) [] (t_type (lt_ 0 (fetch 2 s)))) eqn:Ex; [|exact H]. exfalso. apply X2 in Ex. apply E'. rewrite <- (lt0 s H). exact Ex.
Qed.
Lemma match_eof f s : wfp s -> (1 <= f)%nat ->
  match rrun parser_atn f (Match 51 EOF) [] s with RNormal s' => at_eof s' | RExn s' m e => wfp s' | RFuel => False end.
Proof. intros H Hf. apply match_last; [exact expected_51|exact expected_end|exact H|exact Hf]. Qed.
Lemma query_costs : chk (Call 46 main_query) = true /\ chk (IfLa 49 (la 18) (Seq (Match 47 WITHIN) (Call 48 within_part))) = true.
Proof. split; apply good_inv; [apply (proj1 good_query)|apply (proj2 good_query)]. Qed.
Lemma goal_all f x c s : good x = true -> wfp s -> (bnd * S (phi s) <= f)%nat -> post s false false (rrun parser_atn f x c s).
Proof.
  intros Hg Hw Hf. destruct (good_inv x Hg) as [Hc _]. destruct (chk_some x Hc) as (n & cn & ce & Hn & Hb). eapply post_weak; [| |apply (rrun_goal f x Hg 60%nat all_ttypes c s n cn ce Hn Hw (all_in _)); lia]; discriminate.
Qed.
Theorem recovering_ends ts : to_eof (types_of ts) -> exists s, recovering parser_atn ts = RNormal s /\ at_eof s.
Proof.
  intros H. unfold recovering. set (f0 := (2048 * S (length ts))%nat). assert (Hf0 : (bnd * S (phi (rstart ts)) + 10 <= f0)%nat).
  { unfold f0, phi. pose proof (left_le (rstart ts)) as HL. rewrite ns_len_eq in *. unfold bnd. cbn [rstart p_rest]. lia. }
  clearbody f0. destruct f0 as [|[|f]]; [lia|lia|]. assert (Hw : wfp (rstart ts)) by exact H.
  cbn [method]. cbn [rrun].
  assert (HC : forall r, match r with RNormal s' => at_eof s' | RExn s' m e => wfp s' | RFuel => False end -> exists s, caught parser_atn [] r = RNormal s /\ at_eof s).
  { intros r Hr. destruct r as [s'|s' m e|]; [exists s'; auto| |contradiction]. cbn [caught]. eexists. split; [reflexivity|]. apply recover_eof. unfold wfp. rewrite error_rest. exact Hr. }
  apply HC. clear HC.
  pose proof (goal_all (S f) (Call 46 main_query) [] (rstart ts) (proj1 good_query) Hw ltac:(lia)) as H1. cbn [rrun] in H1.
  destruct (caught parser_atn [46] (rrun parser_atn f (method main_query) [46] (rstart ts))) as [s1|s1 m e|]; cbn [post rthen] in *; [|tauto|contradiction]. destruct H1 as (W1 & S1 & _). apply step_le in S1.
  pose proof (goal_all f (IfLa 49 (la 18) (Seq (Match 47 WITHIN) (Call 48 within_part))) [] s1 (proj2 good_query) W1 ltac:(unfold bnd in *; lia)) as H2.
  destruct (rrun parser_atn f (IfLa 49 (la 18) (Seq (Match 47 WITHIN) (Call 48 within_part))) [] s1) as [s2|s2 m e|]; cbn [post rthen] in *; [|tauto|contradiction]. destruct H2 as (W2 & _). apply match_eof; [exact W2|lia].
Qed.
