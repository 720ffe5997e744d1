(** What stays true while the parser runs. *)
From Verif Require Import Base LexRules Lexer Grammar Antlr Parser GenParser Atn AllStar AllStarFacts AllStarLoop AllStarNet GenFacts Recover RecoverPred RecoverNeed RecoverTerm.
Local Open Scope Z_scope.
Opaque parser_atn need good ns_len expected next_has next_eps recovery_set adaptive_predict lookahead set_text.

Section Inv.
  Variable ts : list token.
  (** A reported call is about one of the tokens fetched so far. *)
  Definition about (x : nat * lcall) : Prop :=
    exists t i, nth_error ts i = Some t /\ (i < fst x <= length ts)%nat /\ lc_token (snd x) = Some t /\ lc_line (snd x) = t_line t /\ lc_column (snd x) = t_col t.
  Definition inv (s : pst) : Prop :=
    wfp s /\ (exists pre, ts = pre ++ p_rest s /\ length pre = p_index s) /\ Forall about (p_calls s) /\
    (length (p_calls s) + (if p_mode s then 0 else 1) <= S (p_index s))%nat /\ (p_index s < p_fetched s <= length ts)%nat.
  Definition ext (s s' : pst) : Prop := exists l, p_calls s' = l ++ p_calls s.
  Definition keeps (s s' : pst) : Prop := ext s s' /\ (inv s -> inv s').
  Lemma keeps_refl s : keeps s s. Proof. split; [exists []; reflexivity|auto]. Qed.
  Lemma ext_trans a b c : ext a b -> ext b c -> ext a c.
  Proof. intros [l H] [l' H']. exists (l' ++ l). rewrite H', H, app_assoc. reflexivity. Qed.
  Lemma keeps_trans a b c : keeps a b -> keeps b c -> keeps a c.
  Proof. intros [H1 H2] [H3 H4]. split; [eapply ext_trans; eassumption|auto]. Qed.
  Lemma keeps_fetch k s : keeps s (fetch k s).
  Proof.
    split; [exists []; reflexivity|]. intros (H & (pre & Hp & Hl) & Hc & Hn & Hf). split; [exact H|]. split; [exists pre; auto|]. split; [exact Hc|]. split; [exact Hn|]. cbn [fetch p_index p_fetched]. pose proof (f_equal (@length _) Hp) as Ht. rewrite app_length in Ht. lia.
  Qed.
  Lemma consume_fetched s : wfp s -> la1 (p_rest s) <> EOF -> p_fetched (consume s) = Nat.max (p_fetched s) (S (S (p_index s))).
  Proof. intros H E. destruct (wfp_cases s H) as [(k & Er & Ek)|(k & k' & r & Er & Ek & Hr)]; [rewrite Er in E; contradiction|]. unfold consume. rewrite Er. cbn [fetch p_fetched p_index p_rest length Nat.min]. f_equal. lia. Qed.
  Lemma consume_calls s : p_calls (consume s) = p_calls s.
  Proof. unfold consume. destruct (p_rest s) as [|a [|b r]]; reflexivity. Qed.
  Lemma consume_mode s : p_mode (consume s) = p_mode s.
  Proof. unfold consume. destruct (p_rest s) as [|a [|b r]]; reflexivity. Qed.
  Lemma consume_index s : wfp s -> la1 (p_rest s) <> EOF -> p_index (consume s) = S (p_index s) /\ exists k, p_rest s = k :: p_rest (consume s).
  Proof. intros H E. destruct (wfp_cases s H) as [(k & Er & Ek)|(k & k' & r & Er & Ek & Hr)]; [rewrite Er in E; contradiction|]. unfold consume. rewrite Er. split; [reflexivity|]. exists k. reflexivity. Qed.
  Lemma keeps_consume s : keeps s (consume s).
  Proof.
    split; [exists []; apply consume_calls|]. intros (H & (pre & Hp & Hl) & Hc & Hn & Hf). destruct (ttype_eq_dec (la1 (p_rest s)) EOF) as [E|E]; [rewrite (consume_eof s E H); repeat split; eauto; lia|].
    destruct (consume_index s H E) as [Hi [k Hk]]. destruct (consume_len s H E) as [Hw _]. pose proof (consume_fetched s H E) as Hff. pose proof (f_equal (@length _) Hp) as Ht. rewrite Hk, app_length in Ht. cbn [length] in Ht. pose proof (wfp_ne _ Hw) as Hne. assert (0 < length (p_rest (consume s)))%nat by (destruct (p_rest (consume s)); [contradiction|cbn; lia]). split; [exact Hw|]. split; [|rewrite consume_calls, consume_mode, Hi; split; [exact Hc|lia]].
    exists (pre ++ [k]). rewrite <- app_assoc. cbn [app]. rewrite <- Hk. split; [exact Hp|]. rewrite app_length. cbn [length]. lia.
  Qed.
  (** A match (at a token other than EOF) ends error recovery. *)
  Lemma keeps_match s : la1 (p_rest s) <> EOF -> keeps s (consume (report_match s)).
  Proof.
    intros E. split; [exists []; apply consume_calls|]. intros (H & (pre & Hp & Hl) & Hc & Hn & Hf). destruct (consume_index (report_match s) H E) as [Hi [k Hk]]. destruct (consume_len (report_match s) H E) as [Hw _]. cbn [report_match p_index p_rest] in Hi, Hk.
    pose proof (consume_fetched (report_match s) H E) as Hff. cbn [report_match p_fetched p_index] in Hff. pose proof (f_equal (@length _) Hp) as Ht. rewrite Hk, app_length in Ht. cbn [length] in Ht. pose proof (wfp_ne _ Hw) as Hne. assert (0 < length (p_rest (consume (report_match s))))%nat by (destruct (p_rest (consume (report_match s))); [contradiction|cbn; lia]).
    split; [exact Hw|]. split; [|rewrite consume_calls, consume_mode, Hi; cbn [report_match p_calls p_mode]; split; [exact Hc|destruct (p_mode s); lia]].
    exists (pre ++ [k]). rewrite <- app_assoc. cbn [app]. rewrite <- Hk. split; [exact Hp|]. rewrite app_length. cbn [length]. lia.
  Qed.
  (** The token is among those fetched. *)
  Definition fetched (t : token) (s : pst) : Prop := exists j, nth_error (p_rest s) j = Some t /\ (p_index s + j < p_fetched s)%nat.
  Lemma lt_fetched s : inv s -> fetched (lt_ 0 s) s.
  Proof.
    intros (H & _ & _ & _ & Hf). exists O. split; [|lia]. pose proof (wfp_ne s H) as Hne. unfold lt_. destruct (p_rest s); [contradiction|reflexivity].
  Qed.
  Lemma lt_all k s : wfp s -> fetched (lt_ k s) (fetch (length (p_rest s)) s).
  Proof.
    intros H. pose proof (wfp_ne s H) as Hne. unfold fetched, lt_. cbn [fetch p_rest p_index p_fetched]. rewrite Nat.min_id. assert (Hl : (0 < length (p_rest s))%nat) by (destruct (p_rest s); [contradiction|cbn; lia]).
    destruct (Nat.lt_ge_cases k (length (p_rest s))) as [Hk|Hk]; [exists k; split; [apply nth_error_nth'; exact Hk|lia]|]. rewrite nth_overflow by exact Hk. exists (Nat.pred (length (p_rest s))). split; [|lia].
    clear -Hne. destruct (exists_last Hne) as (l & a & ->). rewrite last_last, app_length. cbn [length]. replace (Nat.pred (length l + 1)) with (length l) by lia. rewrite nth_error_app2, Nat.sub_diag by lia. reflexivity.
  Qed.
  Lemma keeps_report t m s : (inv s -> fetched t s) -> keeps s (report t m s).
  Proof.
    intros Ht. unfold report. destruct (p_mode s) eqn:Em; [apply keeps_refl|]. split; [eexists [_]; reflexivity|]. intros HI. destruct (Ht HI) as (j & Hj & Hlt). destruct HI as (H & (pre & Hp & Hl) & Hc & Hn & Hf). split; [exact H|]. split; [exists pre; auto|].
    cbn [p_calls p_mode p_index p_fetched length]. rewrite Em in Hn. split; [|split; [lia|exact Hf]]. constructor; [|exact Hc]. exists t, (p_index s + j)%nat. cbn [fst snd lc_token lc_line lc_column]. split; [rewrite Hp, nth_error_app2 by lia; rewrite <- Hj; f_equal; lia|]. split; [lia|auto].
  Qed.
  Lemma keeps_until stop k : forall s, keeps s (until stop k s).
  Proof. induction k as [|k IH]; intros s; cbn [until]; [apply keeps_refl|]. destruct (_ || _); [apply keeps_refl|]. eapply keeps_trans; [apply keeps_consume|apply IH]. Qed.
  Lemma keeps_recover n c s : keeps s (recover parser_atn n c s).
  Proof.
    unfold recover, consume_until. eapply keeps_trans; [|apply keeps_until]. match goal with |- keeps s (mkPst (p_index ?s1) _ _ _ _ _ _) => apply (keeps_trans s s1); [|split; [exists []; reflexivity|auto]] end.
    match goal with |- keeps s (if ?b then _ else _) => destruct b end; [apply keeps_consume|apply keeps_refl].
  Qed.
  Lemma lt_eof k s : wfp s -> t_type (lt_ 0 s) = EOF -> lt_ k s = lt_ 0 s.
  Proof.
    intros H E. destruct (wfp_cases s H) as [(t & Er & Et)|(t & t' & r & Er & Et & _)]; unfold lt_ in *; rewrite Er in *; cbn [nth] in *; [|contradiction]. destruct k as [|[|k]]; reflexivity.
  Qed.
  Lemma keeps_error e n c s : keeps s (report_error parser_atn e n c s).
  Proof.
    unfold report_error. destruct e as [k|]; [|apply keeps_report; apply lt_fetched]. cbv zeta. match goal with |- keeps s (report _ _ ?s1) => apply (keeps_trans s s1) end.
    - destruct (p_mode s); [apply keeps_refl|]. destruct (match t_type (lt_ 0 s) with EOF => true | _ => false end); [apply keeps_refl|apply keeps_fetch].
    - destruct (p_mode s) eqn:Em; [unfold report; rewrite Em; apply keeps_refl|]. destruct (t_type (lt_ 0 s)) eqn:Et; apply keeps_report; intros HI; try (exact (lt_all k s (proj1 HI))).
      rewrite (lt_eof k s (proj1 HI) Et). apply lt_fetched. exact HI.
  Qed.
  Lemma consume_match s : consume (report_match s) = report_match (consume s).
  Proof. unfold consume. cbn [report_match p_rest]. destruct (p_rest s) as [|a [|b r]] eqn:E; [reflexivity|reflexivity|]. unfold fetch, report_match. cbn [p_index p_rest p_fetched p_mode p_last p_states p_calls]. reflexivity. Qed.
  Lemma keeps_delete n c s : (la1 (p_rest s) = EOF -> expected parser_atn n c EOF = false) -> wfp s -> keeps s (fst (delete parser_atn n c s)).
  Proof.
    intros HE Hw. unfold delete. destruct (expected parser_atn n c (t_type (lt_ 1 (fetch 2 s)))) eqn:E; cbn [fst]; [|apply keeps_fetch].
    assert (Hne : la1 (p_rest s) <> EOF). { intros E0. assert (E1 : t_type (lt_ 1 (fetch 2 s)) = EOF) by (apply (lt1_eof (fetch 2 s)); assumption). rewrite E1, (HE E0) in E. discriminate. }
    set (s1 := report_unwanted parser_atn n c (fetch 2 s)). apply (keeps_trans s s1); [eapply keeps_trans; [apply keeps_fetch|apply keeps_report; apply lt_fetched]|].
    assert (Er : p_rest s1 = p_rest s) by (unfold s1, report_unwanted; rewrite report_rest; reflexivity). rewrite <- Er in Hne.
    destruct (keeps_match s1 Hne) as [HA HB]. split.
    - destruct HA as [l HA]. exists l. cbn [report_match p_calls]. rewrite consume_calls in *. exact HA.
    - intros Hi. specialize (HB Hi). rewrite <- consume_match. exact HB.
  Qed.

  Definition kpost (s : pst) (r : rres) : Prop :=
    match r with RNormal s' | RExn s' _ _ => wfp s' /\ keeps s s' | RFuel => True end.
  Lemma kpost_trans s s1 r : keeps s s1 -> kpost s1 r -> kpost s r.
  Proof. intros H. destruct r; cbn [kpost]; [| |auto]; intros [H1 H2]; (split; [exact H1|eapply keeps_trans; eassumption]). Qed.
  Lemma kpost_inline n c s : wfp s -> (la1 (p_rest s) = EOF -> expected parser_atn n c EOF = false) -> kpost s (recover_inline parser_atn n c s).
  Proof.
    intros H HE. unfold recover_inline. pose proof (keeps_delete n c s HE H) as HK. pose proof (delete_step n c s H HE) as HD. destruct (delete parser_atn n c s) as [s1 b]. cbn [fst] in HK. clear HE. destruct b.
    - destruct HD as [H1 _]. split; [apply consume_step; exact H1|]. eapply keeps_trans; [exact HK|apply keeps_consume].
    - assert (H1 : wfp s1) by (subst s1; exact H). destruct (expected parser_atn (follow_of parser_atn n) c _); cbn [kpost]; [|split; [exact H1|exact HK]]. split; [unfold wfp, report_missing; rewrite report_rest; exact H1|].
      eapply keeps_trans; [exact HK|]. apply keeps_report. apply lt_fetched.
  Qed.
  Lemma kpost_sync n c s k : wfp s -> (forall s', wfp s' -> kpost s' (k s')) -> kpost s (sync_ parser_atn n c s k).
  Proof.
    intros H Hk. unfold sync_. destruct (p_mode s); [apply Hk; exact H|]. destruct (next_has parser_atn n (la1 (p_rest s)) || next_eps parser_atn n) eqn:E; [apply Hk; exact H|]. destruct (existsb _ [3; 4; 5; 10]).
    - assert (HE : la1 (p_rest s) = EOF -> expected parser_atn n c EOF = false). { intros E0. rewrite E0 in E. apply expected_no. exact E. }
      pose proof (keeps_delete n c s HE H) as HK. pose proof (delete_step n c s H HE) as HD. destruct (delete parser_atn n c s) as [s1 b]. cbn [fst] in HK. destruct b.
      + destruct HD as [H1 _]. eapply kpost_trans; [exact HK|apply Hk; exact H1].
      + subst s1. split; [exact H|exact HK].
    - destruct (existsb _ [9; 11]); [|apply Hk; exact H]. eapply kpost_trans; [|apply Hk].
      + eapply keeps_trans; [|apply keeps_until]. apply keeps_report. apply lt_fetched.
      + apply until_step. unfold wfp, report_unwanted. rewrite report_rest. exact H.
  Qed.
  Lemma kpost_predict n d c s k : wfp s -> (forall i s', wfp s' -> kpost s' (k i s')) -> kpost s (predict_ parser_atn n d c s k).
  Proof.
    intros H Hk. unfold predict_. cbv zeta. destruct (adaptive_predict _ _ _ _) as [i|j].
    - eapply kpost_trans; [apply keeps_fetch|apply Hk; exact H].
    - cbn [kpost]. split; [exact H|apply keeps_fetch].
  Qed.
  Lemma kpost_normal s : wfp s -> kpost s (RNormal s). Proof. intros H. split; [exact H|apply keeps_refl]. Qed.
  Lemma kpost_then s r k : kpost s r -> (forall s', wfp s' -> kpost s' (k s')) -> kpost s (rthen r k).
  Proof. intros H Hk. destruct r as [s'|s' m e|]; cbn [rthen]; [|exact H|exact H]. destruct H as [H1 H2]. eapply kpost_trans; [exact H2|apply Hk; exact H1]. Qed.
  Lemma kpost_caught c s r : kpost s r -> kpost s (caught parser_atn c r).
  Proof.
    destruct r as [s'|s' m e|]; cbn [caught]; [auto| |auto]. intros [H1 H2]. cbn [kpost].
    assert (Hw : wfp (report_error parser_atn e m c s')) by (unfold wfp; rewrite error_rest; exact H1). split; [|eapply keeps_trans; [exact H2|eapply keeps_trans; [apply keeps_error|apply keeps_recover]]].
    unfold recover, consume_until. apply until_step. match goal with |- wfp (mkPst (p_index ?s1) _ _ _ _ _ _) => change (wfp s1) end. match goal with |- wfp (if ?b then _ else _) => destruct b end; [apply consume_step; exact Hw|exact Hw].
  Qed.
  Lemma rrun_keeps f : forall x c s, good x = true -> wfp s -> kpost s (rrun parser_atn f x c s).
  Proof.
    induction f as [|f IH]; intros x c s Hg H; [exact I|]. destruct (good_inv x Hg) as [_ Hin].
    destruct x as [m t|m x l|m r|a b|m l|m x b|m d l|m d b|m b m' x|m b m' d|b m x|b m d]; cbn [rrun].
    - apply andb_prop in Hin. destruct Hin as [Hin _]. apply andb_prop in Hin. destruct Hin as [Ht He]. apply negb_true_iff in He. apply negb_true_iff in Ht.
      destruct (ttype_eqb (la1 (p_rest s)) t) eqn:E; [|apply kpost_inline; [exact H|intros _; apply expected_no; exact He]].
      assert (Hne : la1 (p_rest s) <> EOF). { intros E0. rewrite E0 in E. unfold ttype_eqb in *. destruct (ttype_eq_dec EOF t) as [<-|]; [|discriminate]. destruct (ttype_eq_dec EOF EOF); [discriminate|contradiction]. }
      split; [apply match_step; assumption|apply keeps_match; exact Hne].
    - apply andb_prop in Hin. destruct Hin as [Hin _]. apply andb_prop in Hin. destruct Hin as [Ht He]. apply negb_true_iff in He. apply negb_true_iff in Ht.
      destruct (la_test x (la1 (p_rest s))) eqn:E; [|apply kpost_inline; [exact H|intros _; apply expected_no; exact He]].
      assert (Hne : la1 (p_rest s) <> EOF) by (intros E0; congruence). split; [apply match_step; assumption|apply keeps_match; exact Hne].
    - apply kpost_caught. apply IH; [apply good_method; exact Hin|exact H].
    - destruct Hin as [Ga Gb]. apply kpost_then; [apply IH; assumption|]. intros s' H'. apply IH; assumption.
    - destruct Hin as [_ Gl]. apply kpost_sync; [exact H|]. intros s' H'. destruct (find _ l) as [q|] eqn:Ef; [|split; [exact H'|apply keeps_refl]]. apply find_some in Ef. apply IH; [exact (proj1 (forallb_forall _ _) Gl _ (proj1 Ef))|exact H'].
    - destruct Hin as [_ Gb]. apply kpost_sync; [exact H|]. intros s' H'. destruct (la_test x _); [apply IH; assumption|apply kpost_normal; exact H'].
    - destruct Hin as [_ Gl]. apply kpost_sync; [exact H|]. intros s' H'. apply kpost_predict; [exact H'|]. intros i s2 H2. destruct i as [|i]; [apply kpost_normal; exact H2|]. destruct (nth_error l i) as [b|] eqn:Eb; [|apply kpost_normal; exact H2].
      apply IH; [exact (proj1 (forallb_forall _ _) Gl _ (nth_error_In _ _ Eb))|exact H2].
    - destruct Hin as [_ Gb]. apply kpost_sync; [exact H|]. intros s' H'. apply kpost_predict; [exact H'|]. intros i s2 H2. destruct (Nat.eqb i 1); [apply IH; assumption|apply kpost_normal; exact H2].
    - destruct Hin as [_ Gb]. apply kpost_sync; [exact H|]. intros s' H'. apply IH; assumption.
    - destruct Hin as [_ Gb]. apply kpost_sync; [exact H|]. intros s' H'. apply IH; assumption.
    - destruct Hin as [_ Gb]. apply kpost_then; [apply IH; assumption|]. intros s1 H1. apply kpost_sync; [exact H1|]. intros s' H'. destruct (la_test x _); [apply IH; assumption|apply kpost_normal; exact H'].
    - destruct Hin as [_ Gb]. apply kpost_then; [apply IH; assumption|]. intros s1 H1. apply kpost_sync; [exact H1|]. intros s' H'. apply kpost_predict; [exact H'|]. intros i s2 H2. destruct (Nat.eqb i 1); [apply IH; assumption|apply kpost_normal; exact H2].
  Qed.
End Inv.
