(** As long as there is no error the parser does what GenParser.v says, and an error is always reported. *)
From Verif Require Import Base LexRules Lexer Grammar Antlr Parser GenParser Atn AllStar AllStarFacts AllStarLoop AllStarNet GenFacts Recover RecoverPred RecoverNeed RecoverTerm RecoverInv.
Local Open Scope Z_scope.
Opaque parser_atn need good ns_len expected next_has next_eps recovery_set adaptive_predict lookahead set_text.

Section Mono.
  Variable p : nat -> list Z -> list ttype -> option nat.
  Variable sy : Z -> ttype -> bool.
  Lemma mono_then a a' k k' : (a <> GFuel -> a' = a) -> (forall x r, a = GOk x r -> k r <> GFuel -> k' r = k r) -> then_ a k <> GFuel -> then_ a' k' = then_ a k.
  Proof.
    intros H1 H2 H3. destruct a as [x r| |].
    - rewrite (H1 ltac:(discriminate)). cbn [then_] in *. specialize (H2 x r eq_refl). destruct (k r) as [y r'| |] eqn:E; [rewrite H2; [reflexivity|discriminate]|rewrite H2; [reflexivity|discriminate]|contradiction].
    - rewrite (H1 ltac:(discriminate)). reflexivity.
    - cbn in H3. contradiction.
  Qed.
  Lemma run_mono f : forall f' x c ts, (f <= f')%nat -> run p sy f x c ts <> GFuel -> run p sy f' x c ts = run p sy f x c ts.
  Proof.
    induction f as [|f IH]; intros f' x c ts Hf Hn; [contradiction|]. destruct f' as [|f']; [lia|]. apply le_S_n in Hf.
    destruct x as [m t|m x l|m r|a b|m l|m x b|m d l|m d b|m b m' x|m b m' d|b m x|b m d]; cbn [run] in *.
    - reflexivity.
    - reflexivity.
    - rewrite (IH f' (method r) (m :: c) ts Hf); [reflexivity|]. intros E. rewrite E in Hn. contradiction.
    - apply mono_then; [intros H; apply IH; assumption|intros y r _ H; apply IH; assumption|exact Hn].
    - destruct (sy m (la1 ts)); [|reflexivity]. destruct (find _ l); [apply IH; assumption|reflexivity].
    - destruct (sy m (la1 ts)); [|reflexivity]. destruct (la_test x (la1 ts)); [apply IH; assumption|reflexivity].
    - destruct (sy m (la1 ts)); [|reflexivity]. destruct (p d c (types_of ts)) as [[|i]|]; [reflexivity| |reflexivity]. destruct (nth_error l i); [apply IH; assumption|reflexivity].
    - destruct (sy m (la1 ts)); [|reflexivity]. destruct (p d c (types_of ts)) as [[|[|i]]|]; [reflexivity|apply IH; assumption|reflexivity|reflexivity].
    - destruct (sy m (la1 ts)); [|reflexivity]. apply IH; assumption.
    - destruct (sy m (la1 ts)); [|reflexivity]. apply IH; assumption.
    - apply mono_then; [intros H; apply IH; assumption| |exact Hn]. intros y r _ H. destruct (sy m (la1 r)); [|reflexivity]. destruct (la_test x (la1 r)); [apply IH; assumption|reflexivity].
    - apply mono_then; [intros H; apply IH; assumption| |exact Hn]. intros y r _ H. destruct (sy m (la1 r)); [|reflexivity]. destruct (p d c (types_of r)) as [[|[|i]]|]; [reflexivity|apply IH; assumption|reflexivity|reflexivity].
  Qed.
End Mono.

Definition more (s s' : pst) : Prop := (length (p_calls s) < length (p_calls s'))%nat.
Definition quiet (s s' : pst) : Prop := p_mode s' = false /\ p_calls s' = p_calls s.
(** What the parser does, given what GenParser.v says. *)
Definition sim (s : pst) (g : gres) (x : rres) : Prop :=
  match g with
  | GOk _ r => exists s', x = RNormal s' /\ p_rest s' = r /\ quiet s s' /\ wfp s'
  | GErr => match x with
            | RNormal s' => wfp s' /\ more s s'
            | RExn s' _ _ => wfp s' /\ (quiet s s' \/ more s s')
            | RFuel => True
            end
  | GFuel => True
  end.
Lemma ext_more a b c : more a b -> ext b c -> more a c.
Proof. unfold more. intros H [l E]. rewrite E, app_length. lia. Qed.
Lemma quiet_trans a b c : quiet a b -> quiet b c -> quiet a c.
Proof. intros [H1 H2] [H3 H4]. split; [exact H3|]. rewrite H4. exact H2. Qed.
Lemma sim_quiet s s1 g x : quiet s s1 -> sim s1 g x -> sim s g x.
Proof.
  intros Hq. destruct g as [y r| |]; cbn [sim]; [|  |auto].
  - intros (s' & H1 & H2 & H3 & H4). exists s'. split; [exact H1|split; [exact H2|split; [eapply quiet_trans; eassumption|exact H4]]].
  - unfold more. destruct Hq as [_ Hc]. rewrite Hc. destruct x as [s'|s' m e|]; [auto| |auto]. intros [H1 [H2|H2]]; (split; [exact H1|]); [left|right; exact H2]. destruct H2 as [H2 H3]. split; [exact H2|]. rewrite H3. exact Hc.
Qed.
(** Once more calls have been made, nothing takes them back. *)
Lemma kpost_more ts s s1 x : more s s1 -> kpost ts s1 x -> sim s GErr x.
Proof.
  intros Hm. destruct x as [s'|s' m e|]; cbn [kpost sim]; [| |auto].
  - intros [H1 [H2 _]]. split; [exact H1|eapply ext_more; eassumption].
  - intros [H1 [H2 _]]. split; [exact H1|right; eapply ext_more; eassumption].
Qed.
Lemma report_more t m s : p_mode s = false -> more s (report t m s).
Proof. intros H. unfold report, more. rewrite H. cbn [p_calls length]. lia. Qed.
Lemma consume_ext s : ext s (consume s). Proof. exists []. apply consume_calls. Qed.

Section Sim.
  Notation ru := (run (adaptive parser_atn) (sync_passes parser_atn)).
  Notation rr := (rrun parser_atn).
  Lemma sim_match s : wfp s -> la1 (p_rest s) <> EOF -> exists k, p_rest s = k :: p_rest (consume (report_match s)) /\ quiet s (consume (report_match s)) /\ wfp (consume (report_match s)).
  Proof.
    intros H E. destruct (consume_index (report_match s) H E) as [_ [k Hk]]. exists k. split; [exact Hk|]. split; [split; [rewrite consume_mode; reflexivity|rewrite consume_calls; reflexivity]|]. apply match_step; assumption.
  Qed.
  Lemma sim_delete n c s : wfp s -> p_mode s = false -> (la1 (p_rest s) = EOF -> expected parser_atn n c EOF = false) ->
    wfp (fst (delete parser_atn n c s)) /\ (snd (delete parser_atn n c s) = true -> more s (fst (delete parser_atn n c s))) /\ (snd (delete parser_atn n c s) = false -> quiet s (fst (delete parser_atn n c s)) /\ p_rest (fst (delete parser_atn n c s)) = p_rest s).
  Proof.
    intros H Hm HE. pose proof (delete_step n c s H HE) as HD. clear HE. unfold delete in *. destruct (expected parser_atn n c (t_type (lt_ 1 (fetch 2 s)))); cbn [fst snd].
    - destruct HD as [H1 _]. split; [exact H1|]. split; [intros _|discriminate]. unfold more. cbn [report_match p_calls]. rewrite consume_calls. change (p_calls s) with (p_calls (fetch 2 s)). apply report_more. exact Hm.
    - split; [exact H|]. split; [discriminate|intros _]. split; [split; [exact Hm|reflexivity]|reflexivity].
  Qed.
  Lemma sim_inline n c s : wfp s -> p_mode s = false -> (la1 (p_rest s) = EOF -> expected parser_atn n c EOF = false) -> sim s GErr (recover_inline parser_atn n c s).
  Proof.
    intros H Hm HE. destruct (sim_delete n c s H Hm HE) as (H1 & H2 & H3). clear HE. unfold recover_inline. destruct (delete parser_atn n c s) as [s1 b]. cbn [fst snd] in *. destruct b.
    - cbn [sim]. split; [apply consume_step; exact H1|]. eapply ext_more; [apply H2; reflexivity|apply consume_ext].
    - destruct (H3 eq_refl) as [H4 H5]. destruct (expected parser_atn (follow_of parser_atn n) c _); cbn [sim].
      + split; [unfold wfp, report_missing; rewrite report_rest; exact H1|]. destruct H4 as [H6 H7]. unfold more. rewrite <- H7. apply report_more. exact H6.
      + split; [exact H1|left; exact H4].
  Qed.
  Lemma until_ext stop k : forall s, ext s (until stop k s).
  Proof. intros s. apply (keeps_until []). Qed.
  Lemma sync_eq n t : sync_passes parser_atn n t = next_has parser_atn n t || next_eps parser_atn n || negb (existsb (Z.eqb (state_type parser_atn n)) [3; 4; 5; 9; 10; 11]).
  Proof. Transparent next_has next_eps. unfold sync_passes, next_has, next_eps, state_type. reflexivity. Qed.
  Opaque next_has next_eps.
  Lemma sim_sync n c s k g : wfp s -> p_mode s = false -> (forall s', wfp s' -> kpost [] s' (k s')) -> sim s g (k s) ->
    sim s (if sync_passes parser_atn n (la1 (p_rest s)) then g else GErr) (sync_ parser_atn n c s k).
  Proof.
    intros H Hm Hk Hg. rewrite sync_eq. unfold sync_. rewrite Hm. destruct (next_has parser_atn n (la1 (p_rest s)) || next_eps parser_atn n) eqn:E; cbn [orb]; [exact Hg|].
    assert (HE : la1 (p_rest s) = EOF -> expected parser_atn n c EOF = false). { intros E0. rewrite E0 in E. apply expected_no. exact E. }
    set (ty := state_type parser_atn n). clearbody ty. cbn [existsb]. rewrite !orb_false_r.
    destruct ((ty =? 3) || ((ty =? 4) || ((ty =? 5) || (ty =? 10)))) eqn:E1.
    - replace (negb _) with false; [|symmetry; apply negb_false_iff; destruct (ty =? 3), (ty =? 4), (ty =? 5), (ty =? 9), (ty =? 10); try reflexivity; discriminate].
      destruct (sim_delete n c s H Hm HE) as (H1 & H2 & H3). destruct (delete parser_atn n c s) as [s1 b]. cbn [fst snd] in *. destruct b.
      + apply (kpost_more [] s s1); [apply H2; reflexivity|]. apply Hk. exact H1.
      + cbn [sim]. split; [exact H1|left; apply H3; reflexivity].
    - destruct ((ty =? 9) || (ty =? 11)) eqn:E2.
      + replace (negb _) with false; [|symmetry; apply negb_false_iff; destruct (ty =? 3), (ty =? 4), (ty =? 5), (ty =? 9), (ty =? 10), (ty =? 11); try reflexivity; discriminate].
        eapply (kpost_more []); [|apply Hk].
        * eapply ext_more; [|apply until_ext]. apply report_more. exact Hm.
        * apply until_step. unfold wfp, report_unwanted. rewrite report_rest. exact H.
      + replace (negb _) with true; [exact Hg|]. symmetry. apply negb_true_iff. destruct (ty =? 3), (ty =? 4), (ty =? 5), (ty =? 9), (ty =? 10), (ty =? 11); try reflexivity; discriminate.
  Qed.
  (** A choice of adaptivePredict *)
  Lemma sim_predict n d c s k kg : wfp s -> p_mode s = false -> (forall i s', wfp s' -> p_mode s' = false -> p_rest s' = p_rest s -> sim s' (kg i) (k i s')) ->
    sim s (match adaptive parser_atn d c (types_of (p_rest s)) with Some i => kg i | None => GErr end) (predict_ parser_atn n d c s k).
  Proof.
    intros H Hm Hk. unfold predict_, adaptive. cbv zeta. destruct (adaptive_predict parser_atn d c (types_of (p_rest s))) as [i|j].
    - eapply sim_quiet; [|apply Hk]; [split; [exact Hm|reflexivity]|exact H|exact Hm|reflexivity].
    - cbn [sim]. split; [exact H|left; split; [exact Hm|reflexivity]].
  Qed.
  Lemma sim_then s a x k kx : sim s a x -> (forall r s', wfp s' -> p_mode s' = false -> p_rest s' = r -> sim s' (k r) (kx s')) -> (forall s', wfp s' -> kpost [] s' (kx s')) -> sim s (then_ a k) (rthen x kx).
  Proof.
    intros Hs Hk Hx. destruct a as [y r| |].
    - destruct Hs as (s' & -> & Hr & Hq & Hw). cbn [rthen then_]. specialize (Hk r s' Hw (proj1 Hq) Hr). apply (sim_quiet s s') in Hk; [|exact Hq]. destruct (k r) as [z r'| |]; [|exact Hk|exact I]. cbn [sim] in *. exact Hk.
    - cbn [then_]. destruct x as [s'|s' m e|]; cbn [rthen]; [|exact Hs|exact I]. destruct Hs as [H1 H2]. apply (kpost_more [] s s' _ H2). apply Hx. exact H1.
    - exact I.
  Qed.
  Lemma error_more e n c s : p_mode s = false -> more s (report_error parser_atn e n c s).
  Proof.
    intros Hm. unfold report_error. destruct e as [k|]; [|apply report_more; exact Hm]. cbv zeta. rewrite Hm. destruct (match t_type (lt_ 0 s) with EOF => true | _ => false end); [apply report_more; exact Hm|].
    unfold report, more. cbn [fetch p_mode p_calls]. rewrite Hm. cbn [p_calls length]. lia.
  Qed.
  Lemma sim_caught s g x c : sim s g x -> kpost [] s x -> sim s g (caught parser_atn c x).
  Proof.
    intros Hs Hp. destruct g as [y r| |]; [destruct Hs as (s' & -> & Hs); exists s'; split; [reflexivity|exact Hs]| |exact I].
    pose proof (kpost_caught [] c s x Hp) as Hq. destruct x as [s'|s' m e|]; cbn [caught sim kpost] in *; [exact Hs| |exact I]. destruct Hq as [Hw _]. split; [exact Hw|]. destruct Hs as [_ [Hs|Hs]].
    - eapply ext_more; [|apply (keeps_recover [])]. unfold more. rewrite <- (proj2 Hs). apply error_more. exact (proj1 Hs).
    - eapply ext_more; [exact Hs|]. eapply ext_trans; [apply (keeps_error [])|apply (keeps_recover [])].
  Qed.
  Theorem rrun_sim f : forall x c s, good x = true -> wfp s -> p_mode s = false -> sim s (ru f x c (p_rest s)) (rr f x c s).
  Proof.
    induction f as [|f IH]; intros x c s Hg H Hm; [exact I|]. pose proof (rrun_keeps [] f) as RK. destruct (good_inv x Hg) as [_ Hin].
    destruct x as [m t|m x l|m r|a b|m l|m x b|m d l|m d b|m b m' x|m b m' d|b m x|b m d]; cbn [rrun run].
    - apply andb_prop in Hin. destruct Hin as [Hin _]. apply andb_prop in Hin. destruct Hin as [Ht He]. apply negb_true_iff in He. apply negb_true_iff in Ht.
      destruct (ttype_eqb (la1 (p_rest s)) t) eqn:E.
      + assert (Hne : la1 (p_rest s) <> EOF). { intros E0. rewrite E0 in E. unfold ttype_eqb in *. destruct (ttype_eq_dec EOF t) as [<-|]; [|discriminate]. destruct (ttype_eq_dec EOF EOF); [discriminate|contradiction]. }
        destruct (sim_match s H Hne) as (k & Ek & Hq & Hw). destruct (p_rest s) as [|k' r'] eqn:Er; [discriminate|]. injection Ek as -> Ek. cbn [la1] in E. rewrite E. cbn [sim]. eexists. split; [reflexivity|]. split; [symmetry; exact Ek|]. split; assumption.
      + destruct (p_rest s) as [|k' r'] eqn:Er; [destruct (wfp_ne s H Er)|]. cbn [la1] in E. rewrite E. apply sim_inline; [exact H|exact Hm|]. intros _. apply expected_no. exact He.
    - apply andb_prop in Hin. destruct Hin as [Hin _]. apply andb_prop in Hin. destruct Hin as [Ht He]. apply negb_true_iff in He. apply negb_true_iff in Ht.
      destruct (la_test x (la1 (p_rest s))) eqn:E.
      + assert (Hne : la1 (p_rest s) <> EOF) by (intros E0; congruence).
        destruct (sim_match s H Hne) as (k & Ek & Hq & Hw). destruct (p_rest s) as [|k' r'] eqn:Er; [destruct (wfp_ne s H Er)|]. injection Ek as -> Ek. cbn [la1] in E. rewrite E. cbn [sim]. eexists. split; [reflexivity|]. split; [symmetry; exact Ek|]. split; assumption.
      + destruct (p_rest s) as [|k' r'] eqn:Er; [destruct (wfp_ne s H Er)|]. cbn [la1] in E. rewrite E. apply sim_inline; [exact H|exact Hm|]. intros _. apply expected_no. exact He.
    - apply good_method in Hin. pose proof (sim_caught s _ _ (m :: c) (IH (method r) (m :: c) s Hin H Hm) (RK (method r) (m :: c) s Hin H)) as HS.
      destruct (ru f (method r) (m :: c) (p_rest s)) as [ch rest| |]; exact HS.
    - destruct Hin as [Ga Gb]. apply sim_then; [apply IH; assumption| |intros s' H'; apply RK; assumption]. intros r s' H' Hm' <-. apply IH; assumption.
    - destruct Hin as [_ Gl]. apply sim_sync; [exact H|exact Hm| |].
      + intros s' H'. destruct (find _ l) as [q|] eqn:Ef; [|split; [exact H'|apply keeps_refl]]. apply find_some in Ef. apply RK; [exact (proj1 (forallb_forall _ _) Gl _ (proj1 Ef))|exact H'].
      + destruct (find _ l) as [q|] eqn:Ef; [|cbn [sim]; split; [exact H|left; split; [exact Hm|reflexivity]]]. apply find_some in Ef. apply IH; [exact (proj1 (forallb_forall _ _) Gl _ (proj1 Ef))|exact H|exact Hm].
    - destruct Hin as [_ Gb]. apply sim_sync; [exact H|exact Hm| |].
      + intros s' H'. destruct (la_test x _); [apply RK; assumption|apply kpost_normal; exact H'].
      + destruct (la_test x _); [apply IH; assumption|]. exists s. split; [reflexivity|split; [reflexivity|split; [split; [exact Hm|reflexivity]|exact H]]].
    - destruct Hin as [_ Gl]. apply sim_sync; [exact H|exact Hm| |].
      + intros s' H'. apply kpost_predict; [exact H'|]. intros i s2 H2. destruct i as [|i]; [apply kpost_normal; exact H2|]. destruct (nth_error l i) as [b|] eqn:Eb; [|apply kpost_normal; exact H2].
        apply RK; [exact (proj1 (forallb_forall _ _) Gl _ (nth_error_In _ _ Eb))|exact H2].
      + pose proof (sim_predict m d c s (fun i s => match i with S j => match nth_error l j with Some b => rr f b c s | None => RNormal s end | O => RNormal s end)
          (fun i => match i with S j => match nth_error l j with Some b => ru f b c (p_rest s) | None => GOk [] (p_rest s) end | O => GOk [] (p_rest s) end) H Hm) as HP.
        destruct (adaptive parser_atn d c (types_of (p_rest s))) as [[|i]|]; apply HP; intros j s' H' Hm' Hr;
          (destruct j as [|j]; [exists s'; split; [reflexivity|split; [exact Hr|split; [split; [exact Hm'|reflexivity]|exact H']]]|]; destruct (nth_error l j) as [b|] eqn:Eb;
           [rewrite <- Hr; apply IH; [exact (proj1 (forallb_forall _ _) Gl _ (nth_error_In _ _ Eb))|exact H'|exact Hm']|exists s'; split; [reflexivity|split; [exact Hr|split; [split; [exact Hm'|reflexivity]|exact H']]]]).
    - destruct Hin as [_ Gb]. apply sim_sync; [exact H|exact Hm| |].
      + intros s' H'. apply kpost_predict; [exact H'|]. intros i s2 H2. destruct (Nat.eqb i 1); [apply RK; assumption|apply kpost_normal; exact H2].
      + pose proof (sim_predict m d c s (fun i s => if Nat.eqb i 1 then rr f b c s else RNormal s) (fun i => if Nat.eqb i 1 then ru f b c (p_rest s) else GOk [] (p_rest s)) H Hm) as HP.
        destruct (adaptive parser_atn d c (types_of (p_rest s))) as [[|[|i]]|]; apply HP; intros j s' H' Hm' Hr;
          (destruct (Nat.eqb j 1); [rewrite <- Hr; apply IH; assumption|exists s'; split; [reflexivity|split; [exact Hr|split; [split; [exact Hm'|reflexivity]|exact H']]]]).
    - destruct Hin as [_ Gb]. apply sim_sync; [exact H|exact Hm| |]; [intros s' H'; apply RK; assumption|apply IH; assumption].
    - destruct Hin as [_ Gb]. apply sim_sync; [exact H|exact Hm| |]; [intros s' H'; apply RK; assumption|apply IH; assumption].
    - destruct Hin as [_ Gb]. apply sim_then; [apply IH; assumption| |].
      + intros r s' H' Hm' <-. apply sim_sync; [exact H'|exact Hm'| |].
        * intros s2 H2. destruct (la_test x _); [apply RK; assumption|apply kpost_normal; exact H2].
        * destruct (la_test x _); [apply IH; assumption|]. exists s'. split; [reflexivity|split; [reflexivity|split; [split; [exact Hm'|reflexivity]|exact H']]].
      + intros s' H'. apply kpost_sync; [exact H'|]. intros s2 H2. destruct (la_test x _); [apply RK; assumption|apply kpost_normal; exact H2].
    - destruct Hin as [_ Gb]. apply sim_then; [apply IH; assumption| |].
      + intros r s' H' Hm' <-. apply sim_sync; [exact H'|exact Hm'| |].
        * intros s2 H2. apply kpost_predict; [exact H2|]. intros i s3 H3. destruct (Nat.eqb i 1); [apply RK; assumption|apply kpost_normal; exact H3].
        * pose proof (sim_predict m d c s' (fun i s => if Nat.eqb i 1 then rr f (LoopPred b m d) c s else RNormal s) (fun i => if Nat.eqb i 1 then ru f (LoopPred b m d) c (p_rest s') else GOk [] (p_rest s')) H' Hm') as HP.
          destruct (adaptive parser_atn d c (types_of (p_rest s'))) as [[|[|i]]|]; apply HP; intros j s2 H2 Hm2 Hr;
          (destruct (Nat.eqb j 1); [rewrite <- Hr; apply IH; assumption|exists s2; split; [reflexivity|split; [exact Hr|split; [split; [exact Hm2|reflexivity]|exact H2]]]]).
      + intros s' H'. apply kpost_sync; [exact H'|]. intros s2 H2. apply kpost_predict; [exact H2|]. intros i s3 H3. destruct (Nat.eqb i 1); [apply RK; assumption|apply kpost_normal; exact H3].
  Qed.

  (** ** [parser.query()] *)
  Definition epost (s : pst) (r : rres) : Prop := match r with RNormal s' | RExn s' _ _ => wfp s' /\ ext s s' | RFuel => True end.
  Lemma kpost_epost ts s r : kpost ts s r -> epost s r.
  Proof. destruct r; cbn [kpost epost]; [| |auto]; intros [H [H1 _]]; auto. Qed.
  Lemma sim_then_e s a x k kx : sim s a x -> (forall r s', wfp s' -> p_mode s' = false -> p_rest s' = r -> sim s' (k r) (kx s')) -> (forall s', wfp s' -> epost s' (kx s')) -> sim s (then_ a k) (rthen x kx).
  Proof.
    intros Hs Hk Hx. destruct a as [y r| |].
    - destruct Hs as (s' & -> & Hr & Hq & Hw). cbn [rthen then_]. specialize (Hk r s' Hw (proj1 Hq) Hr). apply (sim_quiet s s') in Hk; [|exact Hq]. destruct (k r) as [z r'| |]; [|exact Hk|exact I]. cbn [sim] in *. exact Hk.
    - cbn [then_]. destruct x as [s'|s' m e|]; cbn [rthen]; [|exact Hs|exact I]. destruct Hs as [H1 H2]. specialize (Hx s' H1). destruct (kx s') as [s2|s2 m e|]; cbn [epost sim] in *; [| |exact I]; destruct Hx as [Hx1 Hx2]; (split; [exact Hx1|]); [|right]; eapply ext_more; eassumption.
    - exact I.
  Qed.
  Lemma eof_or s : {la1 (p_rest s) = EOF} + {la1 (p_rest s) <> EOF}. Proof. apply ttype_eq_dec. Qed.
  Lemma last_run s f : la1 (p_rest s) = EOF -> wfp s -> rr (S f) (Match 51 EOF) [] s = RNormal (report_match s).
  Proof. intros E H. cbn [rrun]. rewrite E. cbn. rewrite (consume_eof (report_match s) E H). reflexivity. Qed.
  Lemma last_inline s f : la1 (p_rest s) <> EOF -> rr (S f) (Match 51 EOF) [] s = recover_inline parser_atn 51 [] s.
  Proof. intros E. cbn [rrun]. unfold ttype_eqb. destruct (ttype_eq_dec (la1 (p_rest s)) EOF); [contradiction|reflexivity]. Qed.
  Lemma epost_last s f : wfp s -> epost s (rr f (Match 51 EOF) [] s).
  Proof.
    intros H. destruct f as [|f]; [exact I|]. destruct (eof_or s) as [E|E].
    - rewrite (last_run s f E H). split; [exact H|exists []; reflexivity].
    - rewrite (last_inline s f E). apply (kpost_epost []). apply kpost_inline; [exact H|]. intros E'. contradiction.
  Qed.
  Lemma epost_then s r k : epost s r -> (forall s', wfp s' -> epost s' (k s')) -> epost s (rthen r k).
  Proof. intros H Hk. destruct r as [s'|s' m e|]; cbn [rthen]; [|exact H|exact H]. destruct H as [H1 H2]. specialize (Hk s' H1). destruct (k s') as [s2|s2 m e|]; cbn [epost] in *; [| |exact I]; destruct Hk as [K1 K2]; (split; [exact K1|eapply ext_trans; eassumption]). Qed.
  (** What is known in the end: without an error no call was made, with one at least one. *)
  Definition rest_of (s : pst) (g : gres) (x : rres) : Prop :=
    match g with
    | GOk _ _ => exists s', x = RNormal s' /\ p_calls s' = p_calls s
    | GErr => match x with RNormal s' => more s s' | RExn s' _ _ => quiet s s' \/ more s s' | RFuel => True end
    | GFuel => True
    end.
  Lemma sim_last f s : wfp s -> p_mode s = false -> rest_of s (ru f (Match 51 EOF) [] (p_rest s)) (rr f (Match 51 EOF) [] s).
  Proof.
    intros H Hm. destruct f as [|f]; [exact I|]. destruct (eof_or s) as [E|E].
    - rewrite (last_run s f E H). cbn [run]. destruct (wfp_cases s H) as [(k & Er & Ek)|(k & k' & r & Er & Ek & _)]; [|rewrite Er in E; contradiction]. rewrite Er, Ek. cbn. eexists. split; reflexivity.
    - rewrite (last_inline s f E). cbn [run]. pose proof (sim_inline 51 [] s H Hm ltac:(intros E'; contradiction)) as HS. destruct (p_rest s) as [|k r] eqn:Er; [destruct (wfp_ne s H Er)|].
      cbn [la1] in E. unfold ttype_eqb. destruct (ttype_eq_dec (t_type k) EOF); [contradiction|]. cbn [rest_of]. destruct (recover_inline parser_atn 51 [] s) as [s'|s' m e|]; cbn [sim] in HS; tauto.
  Qed.
  Lemma then_rest s a x k kx : sim s a x -> (forall r s', wfp s' -> p_mode s' = false -> p_rest s' = r -> rest_of s' (k r) (kx s')) -> (forall s', wfp s' -> epost s' (kx s')) -> rest_of s (then_ a k) (rthen x kx).
  Proof.
    intros Hs Hk Hx. destruct a as [y r| |].
    - destruct Hs as (s' & -> & Hr & [Hq1 Hq2] & Hw). cbn [rthen then_]. specialize (Hk r s' Hw Hq1 Hr). destruct (k r) as [z r'| |]; cbn [rest_of] in *; [| |exact I].
      + destruct Hk as (s2 & E & Ec). exists s2. split; [exact E|]. rewrite Ec. exact Hq2.
      + unfold more, quiet in *. rewrite Hq2 in Hk. exact Hk.
    - cbn [then_]. destruct x as [s'|s' m e|]; cbn [rthen]; [|cbn [sim rest_of] in *; tauto|exact I]. destruct Hs as [H1 H2]. specialize (Hx s' H1). destruct (kx s') as [s2|s2 m e|]; cbn [epost rest_of] in *; [| |exact I]; destruct Hx as [Hx1 Hx2]; [|right]; eapply ext_more; eassumption.
    - exact I.
  Qed.
  Definition within_stm : stm := IfLa 49 (la 18) (Seq (Match 47 WITHIN) (Call 48 within_part)).
  Lemma query_rest f ts : to_eof (types_of ts) -> rest_of (rstart ts) (ru (S (S f)) (method query) [] ts) (rr (S (S f)) (method query) [] (rstart ts)).
  Proof.
    intros H. assert (Hw : wfp (rstart ts)) by exact H. change (method query) with (Seq (Call 46 main_query) (Seq within_stm (Match 51 EOF))).
    change (ru (S (S f)) (Seq (Call 46 main_query) (Seq within_stm (Match 51 EOF))) [] ts) with (then_ (ru (S f) (Call 46 main_query) [] ts) (fun r => then_ (ru f within_stm [] r) (fun r => ru f (Match 51 EOF) [] r))).
    change (rr (S (S f)) (Seq (Call 46 main_query) (Seq within_stm (Match 51 EOF))) [] (rstart ts)) with (rthen (rr (S f) (Call 46 main_query) [] (rstart ts)) (fun s => rthen (rr f within_stm [] s) (fun s => rr f (Match 51 EOF) [] s))).
    apply then_rest.
    - apply (rrun_sim (S f) (Call 46 main_query) [] (rstart ts)); [apply good_query|exact Hw|reflexivity].
    - intros r s' H' Hm' <-. apply then_rest; [apply rrun_sim; [apply good_query|exact H'|exact Hm']| |intros s2 H2; apply epost_last; exact H2]. intros r s2 H2 Hm2 <-. apply sim_last; assumption.
    - intros s' H'. apply epost_then; [|intros s2 H2; apply epost_last; exact H2]. apply (kpost_epost []). apply rrun_keeps; [apply good_query|exact H'].
  Qed.
  Theorem query_quiet ts : to_eof (types_of ts) -> exists s, recovering parser_atn ts = RNormal s /\ at_eof s /\
    (forall x r, gen_query (adaptive parser_atn) (sync_passes parser_atn) ts = GOk x r -> p_calls s = []) /\
    (gen_query (adaptive parser_atn) (sync_passes parser_atn) ts = GErr -> p_calls s <> []).
  Proof.
    intros H. destruct (recovering_ends ts H) as (s & Hs & He). exists s. split; [exact Hs|]. split; [exact He|].
    assert (HQ : forall g, run (adaptive parser_atn) (sync_passes parser_atn) (64 * S (length ts)) (method query) [] ts = g -> g <> GFuel -> rest_of (rstart ts) g (rr (2048 * S (length ts)) (method query) [] (rstart ts))).
    { intros g Hg Hn. rewrite <- Hg in Hn. rewrite <- Hg. rewrite <- (run_mono _ _ (64 * S (length ts)) (2048 * S (length ts)) (method query) [] ts ltac:(lia) Hn).
      remember (2048 * S (length ts))%nat as F. destruct F as [|[|f]]; [lia|lia|]. apply query_rest. exact H. }
    unfold recovering in Hs. unfold gen_query. split.
    - intros x r Hg. destruct (run _ _ (64 * S (length ts)) (method query) [] ts) as [y r'| |] eqn:E; try discriminate. destruct (HQ _ eq_refl ltac:(discriminate)) as (s' & E1 & E2). rewrite E1 in Hs. cbn [caught] in Hs. injection Hs as <-. exact E2.
    - intros Hg. destruct (run _ _ (64 * S (length ts)) (method query) [] ts) as [y r'| |] eqn:E; try discriminate. specialize (HQ _ eq_refl ltac:(discriminate)). cbn [rest_of] in HQ.
      destruct (rr (2048 * S (length ts)) (method query) [] (rstart ts)) as [s'|s' m e|]; [| |discriminate]; cbn [caught] in Hs; injection Hs as <-.
      + intros E0. unfold more in HQ. rewrite E0 in HQ. cbn in HQ. lia.
      + assert (HM : more (rstart ts) (recover parser_atn m [] (report_error parser_atn e m [] s'))).
        { eapply ext_more; [|apply (keeps_recover [])]. destruct HQ as [[Q1 Q2]|HQ]; [unfold more; rewrite <- Q2; apply error_more; exact Q1|]. eapply ext_more; [exact HQ|apply (keeps_error [])]. }
        intros E0. unfold more in HM. rewrite E0 in HM. cbn in HM. lia.
  Qed.
  (** ** The calls *)
  Definition fin (ts : list token) (s : pst) : Prop := Forall (about ts) (p_calls s) /\ (length (p_calls s) <= length ts)%nat.
  Lemma inv_fin ts s : inv ts s -> fin ts s.
  Proof.
    intros (H & (pre & Hp & Hl) & Hc & Hn & _). split; [exact Hc|]. assert (length ts = length pre + length (p_rest s))%nat by (rewrite Hp at 1; apply app_length). pose proof (wfp_ne s H) as Hne. destruct (p_rest s); [contradiction|]. cbn [length] in *. destruct (p_mode s); lia.
  Qed.
  Definition ires (ts : list token) (r : rres) : Prop := match r with RNormal s | RExn s _ _ => inv ts s | RFuel => True end.
  Lemma kpost_inv ts s r : inv ts s -> kpost ts s r -> ires ts r.
  Proof. intros H. destruct r; cbn [kpost ires]; [| |auto]; intros [_ [_ HK]]; auto. Qed.
  Theorem query_fin ts s : to_eof (types_of ts) -> recovering parser_atn ts = RNormal s -> fin ts s.
  Proof.
    intros H. assert (Hi : inv ts (rstart ts)). { split; [exact H|]. split; [exists []; split; reflexivity|]. split; [constructor|]. destruct ts; [destruct H|cbn; lia]. }
    unfold recovering. remember (2048 * S (length ts))%nat as F. destruct F as [|[|f]]; [lia|lia|]. clear HeqF. 
    change (rr (S (S f)) (method query) [] (rstart ts)) with (rthen (rr (S f) (Call 46 main_query) [] (rstart ts)) (fun s => rthen (rr f within_stm [] s) (fun s => rr f (Match 51 EOF) [] s))).
    pose proof (kpost_inv ts _ _ Hi (rrun_keeps ts (S f) (Call 46 main_query) [] (rstart ts) (proj1 good_query) H)) as K1.
    assert (HC : forall s1 m e, inv ts s1 -> caught parser_atn [] (RExn s1 m e) = RNormal s -> fin ts s).
    { intros s1 m e I1 E. apply inv_fin. pose proof (kpost_caught ts [] s1 (RExn s1 m e) (conj (proj1 I1) (keeps_refl ts s1))) as KC. rewrite E in KC. exact (proj2 (proj2 KC) I1). }
    destruct (rr (S f) (Call 46 main_query) [] (rstart ts)) as [s1|s1 m e|]; cbn [rthen ires] in *; [|apply HC; exact K1|discriminate].
    pose proof (kpost_inv ts _ _ K1 (rrun_keeps ts f within_stm [] s1 (proj2 good_query) (proj1 K1))) as K2.
    destruct (rr f within_stm [] s1) as [s2|s2 m e|]; cbn [rthen ires] in *; [|apply HC; exact K2|discriminate].
    destruct f as [|f]; [discriminate|]. destruct (eof_or s2) as [E|E].
    - rewrite (last_run s2 f E (proj1 K2)). cbn [caught]. intros E0. injection E0 as <-. exact (inv_fin ts s2 K2).
    - rewrite (last_inline s2 f E). pose proof (kpost_inv ts _ _ K2 (kpost_inline ts 51 [] s2 (proj1 K2) ltac:(intros E'; contradiction))) as K3.
      destruct (recover_inline parser_atn 51 [] s2) as [s3|s3 m e|]; cbn [ires] in K3; [|apply HC; exact K3|discriminate]. cbn [caught]. intros E0. injection E0 as <-. apply inv_fin. exact K3.
  Qed.
End Sim.
