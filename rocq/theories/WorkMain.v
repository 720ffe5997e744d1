(** The number of predictions of the recovering parser: the induction. *)
From Verif Require Import Base Regex LexRules Lexer Grammar Antlr Ast Builder Parser GenParser Atn AllStar ContextData AllStarFacts AllStarLoop AllStarNet GenFacts Recover RecoverPred RecoverNeed RecoverTerm
  Cache CacheFacts Cached CachedFacts WorkSpec WorkNeed WorkCount.
Local Open Scope Z_scope.
Opaque parser_atn need good ns_len work sound expected next_has next_eps recovery_set adaptive_predict lookahead set_text predicted looked Cache.walk dstart.

Lemma cnt_0 s r W R : cnt s r 0 W R.
Proof. destruct r as [s'|s' m e|]; cbn [cnt]; auto; unfold wK; split; intros H; lia. Qed.
Lemma cnt_after s s' r a W R W' R' : spent s s' a W R -> step s s' -> (r = RNormal s' \/ exists m e, r = RExn s' m e) -> (W <= W')%nat -> (R <= R')%nat -> cnt s r a W' R'.
Proof. intros H Hs Hr HW HR. apply (spent_cnt s s' s' r a W R W' R' H (step_le _ _ Hs) Hr eq_refl HW HR). Qed.
Lemma spent_then s0 s s' a W R : spent s0 s a W R -> step s0 s -> step s s' -> spent s0 s' a W (Nat.max W R).
Proof.
  intros [A B] H1 H2. apply step_le in H1. apply step_le in H2. unfold spent, wK in *. split; intros H; [|apply B; lia].
  destruct (Nat.eq_dec (phi s) (phi s0)) as [E|E]; [specialize (B E)|specialize (A ltac:(lia))]; lia.
Qed.
Lemma spent_lt s0 s s' a W R : spent s0 s a W R -> (phi s < phi s0)%nat -> step s s' -> spent s0 s' a W R.
Proof. intros [A B] H1 H2. apply step_le in H2. specialize (A H1). unfold spent, wK in *. split; intros H; lia. Qed.
Lemma spent_any s0 s a W R W' R' : spent s0 s a W R -> (W <= W')%nat -> (R <= R')%nat -> spent s0 s a W' R'.
Proof. intros [A B] H1 H2. split; intros H; [specialize (A H)|specialize (B H)]; lia. Qed.
Lemma progresses_need k G x n cn ce : need k G x = Some (n, cn, ce) -> progresses k G x = cn.
Proof. intros H. unfold progresses. rewrite H. reflexivity. Qed.
Section More.
  Variable f : nat.
  Hypothesis IH : forall x, good x = true -> sound x = true -> goalw f x.
  Lemma next0 x c s0 s W R : good x = true -> sound x = true -> step s0 s -> wfp s -> (bnd * phi s0 <= f)%nat ->
    (phi s = phi s0 -> p_rest s = p_rest s0 -> exists k G n cn ce W1 R1, need k G x = Some (n, cn, ce) /\ work k G x = Some (W1, R1) /\ In (la1 (p_rest s0)) G /\ (bnd * phi s0 + n <= f)%nat /\ (0 + W1 <= W)%nat /\ (0 + R1 <= R)%nat) ->
    (0 + wC <= R)%nat -> cnt s0 (rrun parser_atn f x c s) (asks (rrun_p f x c s)) W R.
  Proof. intros H1 H2 H3 H4 H5 H6 H7. rewrite <- (Nat.add_0_l (asks _)). exact (next f IH x c s0 s 0 0 0 W R H1 H2 H3 H4 H5 (spent_0 s0 s H3) H6 H7). Qed.
  Lemma next1 x c s0 s W R : good x = true -> sound x = true -> step s0 s -> wfp s -> (bnd * phi s0 <= f)%nat ->
    (phi s = phi s0 -> p_rest s = p_rest s0 -> exists k G n cn ce W1 R1, need k G x = Some (n, cn, ce) /\ work k G x = Some (W1, R1) /\ In (la1 (p_rest s0)) G /\ (bnd * phi s0 + n <= f)%nat /\ (1 + W1 <= W)%nat /\ (1 + R1 <= R)%nat) ->
    (1 + wC <= R)%nat -> cnt s0 (rrun parser_atn f x c s) (S (asks (rrun_p f x c s))) W R.
  Proof. intros H1 H2 H3 H4 H5 H6 H7. rewrite <- (Nat.add_1_l (asks _)). exact (next f IH x c s0 s 1 1 1 W R H1 H2 H3 H4 H5 (spent_1 s0 s H3) H6 H7). Qed.
End More.
Opaque wC.
Ltac arith := repeat match goal with H : ?T |- _ => lazymatch T with (_ <= _)%nat => fail | (_ < _)%nat => fail | @eq nat _ _ => fail | not (@eq nat _ _) => fail | _ => clear H end end; lia.
Lemma rrun_work f : forall x, good x = true -> sound x = true -> goalw f x.
Proof.
  induction f as [|f IH]; intros x Hg Hs k G c s n cn ce W R HN HW Hw HG Hf; [exact I|].
  destruct k as [|k]; [rewrite need_0 in HN; discriminate HN|]. rewrite need_S in HN. rewrite work_S in HW. destruct (good_inv x Hg) as [Hchk Hin]. destruct (sound_inv x Hs) as [_ Sin].
  destruct x as [m t|m x l|m r|a b|m l|m x b|m d l|m d b|m b m' x|m b m' d|b m x|b m d]; cbv zeta in HN, HW; cbn [rrun rrun_p].
  - (* Match *) cbn [asks]. apply cnt_0.
  - cbn [asks]. apply cnt_0.
  - (* Call *)
    destruct (need k G (method r)) as [[[n0 c0] e0]|] eqn:E; [|discriminate]. injection HN as <- <- <-. destruct (work k G (method r)) as [[w p]|] eqn:Ew; [|discriminate]. injection HW as <- <-.
    rewrite asks_caught. pose proof (IH (method r) (good_method r Hin) (sound_method r Hin) k G (m :: c) s n0 c0 e0 w p E Ew Hw HG ltac:(arith)) as HI.
    pose proof (rrun_goal f (method r) (good_method r Hin) k G (m :: c) s n0 c0 e0 E Hw HG ltac:(arith)) as HP. destruct (rrun parser_atn f (method r) (m :: c) s) as [s'|s' m' e|]; cbn [caught] in *; [| |exact I].
    + eapply cnt_weak; [| |exact HI]; arith.
    + cbn [post] in HP. destruct HP as (H1 & H2 & H3 & H4). set (s1 := report_error parser_atn e m' (m :: c) s'). assert (Er : p_rest s1 = p_rest s') by apply error_rest. assert (Ep : phi s1 = phi s') by apply error_phi.
      destruct (recover_step m' (m :: c) s1 (same_wfp _ _ Er H1) H4) as (R1 & R2 & R3). apply step_le in R2. apply step_le in H2. rewrite Ep in R2. cbn [cnt] in HI |- *. destruct HI as [A B]. unfold wK in *. split; intros H; [|specialize (B ltac:(arith)); arith].
      destruct (Nat.eq_dec (phi s') (phi s)) as [E'|E']; [specialize (B ltac:(arith))|specialize (A ltac:(arith))]; arith.
  - (* Seq *)
    destruct Hin as [Ga Gb]. destruct Sin as [Sa Sb]. destruct (need k G a) as [[[n0 c0] e0]|] eqn:E; [|discriminate]. destruct (work k G a) as [[w p]|] eqn:Ew; [|discriminate]. rewrite (progresses_need _ _ _ _ _ _ E) in HW.
    assert (Hn0 : (n0 < n)%nat). { destruct c0; [injection HN as <- <- <-; arith|]. destruct (need k G b) as [[[n1 c1] e1]|]; [|discriminate]. injection HN as <- <- <-. arith. }
    pose proof (IH a Ga Sa k G c s n0 c0 e0 w p E Ew Hw HG ltac:(arith)) as HI. pose proof (rrun_goal f a Ga k G c s n0 c0 e0 E Hw HG ltac:(arith)) as HP.
    rewrite asks_then, rrun_eval. destruct (rrun parser_atn f a c s) as [s'|s' m' e|]; cbn [rthen]; [| |exact I].
    + cbn [post] in HP. destruct HP as (H1 & H2 & H3). apply (next f IH b c s s' _ w p); [exact Gb|exact Sb|exact H2|exact H1|arith|apply cnt_spent; exact HI| |].
      * intros E1 E2. destruct c0; [specialize (H3 eq_refl); arith|]. destruct (need k G b) as [[[n1 c1] e1]|] eqn:Eb; [|discriminate]. injection HN as <- <- <-. destruct (work k G b) as [[w' p']|] eqn:Ewb; [|discriminate]. injection HW as <- <-.
        exists k, G, n1, c1, e1, w', p'. split; [exact Eb|]. split; [exact Ewb|]. split; [exact HG|]. arith.
      * destruct c0; [injection HW as <- <-; arith|]. destruct (work k G b) as [[w' p']|]; [|discriminate]. injection HW as <- <-. arith.
    + rewrite Nat.add_0_r. eapply cnt_weak; [| |exact HI]; (destruct c0; [injection HW as <- <-; arith|]); (destruct (work k G b) as [[w' p']|]; [|discriminate]); injection HW as <- <-; arith.
  - (* Switch *)
    destruct Hin as [Hm Gl]. destruct (all_costs _) as [[[n0 c0] e0]|] eqn:E; [|discriminate]. injection HN as <- <- <-. destruct (maxes _) as [[w p]|] eqn:Ew; [|discriminate]. injection HW as <- <-.
    destruct (sync_both m c s Hw (mem_in _ Hm)) as [(s' & Hw' & Hst & S1 & S2)|(e & S1 & S2 & _)]; [rewrite S1, S2|rewrite S1, S2; apply cnt_0].
    destruct (find _ l) as [q|] eqn:Ef; [|cbn [asks]; apply cnt_0]. apply find_some in Ef. destruct Ef as [Hq Eq]. destruct q as [x b]. cbn [fst snd] in *. pose proof (proj1 (forallb_forall _ _) Gl _ Hq) as Gb. cbn [snd] in Gb. pose proof (proj1 (forallb_forall _ _) Sin _ Hq) as Sb. cbn [snd] in Sb.
    destruct (all_costs_in _ _ _ _ (let G' := filter (la_test x) G in if empty G' then Some (O, true, true) else need k G' b) E) as (n1 & c1 & e1 & E1 & L1 & L2 & L3); [apply in_map_iff; exists (x, b); split; [reflexivity|exact Hq]|]. cbv zeta in E1.
    destruct (maxes_in _ _ _ (let G' := filter (la_test x) G in if empty G' then Some (O, O) else work k G' b) Ew) as (w1 & p1 & E2 & L4 & L5); [apply in_map_iff; exists (x, b); split; [reflexivity|exact Hq]|]. cbv zeta in E2.
    apply (next0 f IH b c s s'); [exact Gb|exact Sb|exact Hst|exact Hw'|arith| |arith].
    intros E3 E4. rewrite E4 in Eq. pose proof (in_filter _ _ _ HG Eq) as HG'. rewrite (in_not_empty _ _ HG') in E1, E2. exists k, (filter (la_test x) G), n1, c1, e1, w1, p1. split; [exact E1|]. split; [exact E2|]. split; [exact HG'|]. arith.
  - (* IfLa *)
    destruct Hin as [Hm Gb].
    assert (HX : exists n1 c1 e1 w1 p1, (empty (filter (la_test x) G) = true \/ (need k (filter (la_test x) G) b = Some (n1, c1, e1) /\ work k (filter (la_test x) G) b = Some (w1, p1))) /\ (n1 < n)%nat /\ (w1 <= W)%nat /\ (p1 <= R)%nat /\ (wC <= R)%nat).
    { destruct (empty (filter (la_test x) G)) eqn:Ee.
      - injection HN as <- <- <-. injection HW as <- <-. exists O, true, true, O, O. split; [auto|]. arith.
      - destruct (need k (filter (la_test x) G) b) as [[[n1 c1] e1]|]; [|discriminate]. injection HN as <- <- <-. destruct (work k (filter (la_test x) G) b) as [[w1 p1]|]; [|discriminate]. injection HW as <- <-. exists n1, c1, e1, w1, p1. split; [auto|]. arith. }
    destruct HX as (n1 & c1 & e1 & w1 & p1 & HX & L1 & L2 & L3 & L4). clear HN HW.
    destruct (sync_both m c s Hw (mem_in _ Hm)) as [(s' & Hw' & Hst & S1 & S2)|(e & S1 & S2 & _)]; [rewrite S1, S2|rewrite S1, S2; apply cnt_0].
    destruct (la_test x (la1 (p_rest s'))) eqn:El; [|cbn [asks]; apply cnt_0].
    apply (next0 f IH b c s s'); [exact Gb|exact Sin|exact Hst|exact Hw'|arith| |arith].
    intros E3 E4. rewrite E4 in El. pose proof (in_filter _ _ _ HG El) as HG'. rewrite (in_not_empty _ _ HG') in HX. destruct HX as [HX|[HX HY]]; [discriminate|]. exists k, (filter (la_test x) G), n1, c1, e1, w1, p1. split; [exact HX|]. split; [exact HY|]. split; [exact HG'|]. arith.
  - (* Pred *)
    destruct Hin as [Hm Gl]. destruct (Nat.eqb (length l) _) eqn:En; [|discriminate]. apply Nat.eqb_eq in En. destruct (all_costs _) as [[[n0 c0] e0]|] eqn:E; [|discriminate]. injection HN as <- <- <-. destruct (maxes _) as [[w p]|] eqn:Ew; [|discriminate]. injection HW as <- <-.
    destruct (sync_both m c s Hw (mem_in _ Hm)) as [(s' & Hw' & Hst & S1 & S2)|(e & S1 & S2 & _)]; [rewrite S1, S2|rewrite S1, S2; apply cnt_0].
    destruct (predict_both m d c s' Hw') as [(i & t & s2 & Er2 & Ep2 & P1 & P2 & Hi & Ht & Ha)|(s2 & e & Er2 & Ep2 & P1 & P2)]; rewrite P1, P2.
    + assert (Hst2 : step s s2) by (eapply same_step; eassumption). destruct i as [|i]; [arith|]. cbn [Nat.sub] in Ht. rewrite Nat.sub_0_r in Ht. assert (Hil : (i < length l)%nat) by (rewrite En; apply nth_error_Some; congruence).
      destruct (nth_error l i) as [b|] eqn:Eb; [|apply nth_error_None in Eb; arith].
      pose proof (proj1 (forallb_forall _ _) Gl _ (nth_error_In _ _ Eb)) as Gb. pose proof (proj1 (forallb_forall _ _) Sin _ (nth_error_In _ _ Eb)) as Sb.
      assert (Hq : In (t, b) (combine (alternatives parser_atn d) l)).
      { clear -Ht Eb. revert i Ht Eb. generalize (alternatives parser_atn d) as la. induction l as [|b0 l IH]; intros la i Ht Eb; [destruct i; discriminate|]. destruct la as [|t0 la]; [destruct i; discriminate|].
        destruct i as [|i]; cbn in *; [left; congruence|right; eapply IH; eassumption]. }
      destruct (all_costs_in _ _ _ _ (let G' := filter (alt_ok t) G in if empty G' then Some (O, true, true) else need k G' b) E) as (n1 & c1 & e1 & E1 & L1 & L2 & L3); [apply in_map_iff; exists (t, b); split; [reflexivity|exact Hq]|].
      destruct (maxes_in _ _ _ (let G' := filter (alt_ok t) G in if empty G' then Some (O, O) else work k G' b) Ew) as (w1 & p1 & E2 & L4 & L5); [apply in_map_iff; exists (t, b); split; [reflexivity|exact Hq]|]. cbv zeta in E1, E2.
      apply (next1 f IH b c s s2); [exact Gb|exact Sb|exact Hst2|eapply same_wfp; eassumption|arith| |arith].
      intros E3 E4. rewrite Er2 in E4. rewrite E4 in Ha. pose proof (in_filter _ _ _ HG Ha) as HG'. rewrite (in_not_empty _ _ HG') in E1, E2. exists k, (filter (alt_ok t) G), n1, c1, e1, w1, p1. split; [exact E1|]. split; [exact E2|]. split; [exact HG'|]. arith.
    + assert (Hst2 : step s s2) by (eapply same_step; eassumption). apply (cnt_after s s2 _ 1%nat 1%nat 1%nat); [apply spent_1; exact Hst2|exact Hst2|eauto|arith|arith].
  - (* PredOpt *)
    destruct Hin as [Hm Gb]. set (G1 := filter (alt_ok (hd 0 (alternatives parser_atn d))) G) in *.
    assert (HX : exists n1 c1 e1 w1 p1, (empty G1 = true \/ (need k G1 b = Some (n1, c1, e1) /\ work k G1 b = Some (w1, p1))) /\ (n1 < n)%nat /\ (1 + w1 <= W)%nat /\ (1 + p1 <= R)%nat /\ (1 + wC <= R)%nat).
    { destruct (empty G1) eqn:Ee.
      - injection HN as <- <- <-. injection HW as <- <-. exists O, true, true, O, O. split; [auto|]. arith.
      - destruct (need k G1 b) as [[[n1 c1] e1]|]; [|discriminate]. injection HN as <- <- <-. destruct (work k G1 b) as [[w1 p1]|]; [|discriminate]. injection HW as <- <-. exists n1, c1, e1, w1, p1. split; [auto|]. arith. }
    destruct HX as (n1 & c1 & e1 & w1 & p1 & HX & L1 & L2 & L3 & L4). clear HN HW.
    destruct (sync_both m c s Hw (mem_in _ Hm)) as [(s' & Hw' & Hst & S1 & S2)|(e & S1 & S2 & _)]; [rewrite S1, S2|rewrite S1, S2; apply cnt_0].
    destruct (predict_both m d c s' Hw') as [(i & t & s2 & Er2 & Ep2 & P1 & P2 & Hi & Ht & Ha)|(s2 & e & Er2 & Ep2 & P1 & P2)]; rewrite P1, P2.
    + assert (Hst2 : step s s2) by (eapply same_step; eassumption). destruct (Nat.eqb i 1) eqn:Ei.
      * apply Nat.eqb_eq in Ei. subst i. apply hd_nth in Ht. subst t. apply (next1 f IH b c s s2); [exact Gb|exact Sin|exact Hst2|eapply same_wfp; eassumption|arith| |arith].
        intros E3 E4. rewrite Er2 in E4. rewrite E4 in Ha. pose proof (in_filter _ _ _ HG Ha) as HG'. fold G1 in HG'. rewrite (in_not_empty _ _ HG') in HX. destruct HX as [HX|[HX HY]]; [discriminate|]. exists k, G1, n1, c1, e1, w1, p1. split; [exact HX|]. split; [exact HY|]. split; [exact HG'|]. arith.
      * cbn [asks]. apply (cnt_after s s2 _ 1%nat 1%nat 1%nat); [apply spent_1; exact Hst2|exact Hst2|auto|arith|arith].
    + assert (Hst2 : step s s2) by (eapply same_step; eassumption). apply (cnt_after s s2 _ 1%nat 1%nat 1%nat); [apply spent_1; exact Hst2|exact Hst2|eauto|arith|arith].
  - (* DoLa *)
    destruct Hin as [Hm Gb]. destruct (need k G _) as [[[n1 c1] e1]|] eqn:E; [|discriminate]. injection HN as <- <- <-. destruct (work k G _) as [[w1 p1]|] eqn:Ew; [|discriminate]. injection HW as <- <-.
    destruct (sync_both m c s Hw (mem_in _ Hm)) as [(s' & Hw' & Hst & S1 & S2)|(e & S1 & S2 & _)]; [rewrite S1, S2|rewrite S1, S2; apply cnt_0].
    apply (next0 f IH _ c s s'); [exact Gb|exact Sin|exact Hst|exact Hw'|arith| |arith].
    intros E3 E4. exists k, G, n1, c1, e1, w1, p1. split; [exact E|]. split; [exact Ew|]. split; [exact HG|]. arith.
  - (* DoPred *)
    destruct Hin as [Hm Gb]. destruct (need k G _) as [[[n1 c1] e1]|] eqn:E; [|discriminate]. injection HN as <- <- <-. destruct (work k G _) as [[w1 p1]|] eqn:Ew; [|discriminate]. injection HW as <- <-.
    destruct (sync_both m c s Hw (mem_in _ Hm)) as [(s' & Hw' & Hst & S1 & S2)|(e & S1 & S2 & _)]; [rewrite S1, S2|rewrite S1, S2; apply cnt_0].
    apply (next0 f IH _ c s s'); [exact Gb|exact Sin|exact Hst|exact Hw'|arith| |arith].
    intros E3 E4. exists k, G, n1, c1, e1, w1, p1. split; [exact E|]. split; [exact Ew|]. split; [exact HG|]. arith.
  - (* LoopLa *)
    assert (Gx := Hg). destruct Hin as [Hm Gb]. set (G1 := filter (la_test x) all_ttypes) in *.
    destruct (need k G b) as [[[n0 c0] e0]|] eqn:E; [|discriminate]. destruct (work k G b) as [[w p]|] eqn:Ew; [|discriminate]. rewrite (progresses_need _ _ _ _ _ _ E) in HW.
    assert (HX : (n0 < n)%nat /\ (w <= W)%nat /\ (p + wC <= R)%nat /\ (c0 = true \/ ((w + wC <= R)%nat /\ exists n1 e1 w1 p1, need k G1 b = Some (n1, true, e1) /\ work k G1 b = Some (w1, p1) /\ (S n1 < n)%nat /\ (w + w1 <= W)%nat /\ (w + (p1 + wC) <= R)%nat))).
    { destruct c0; [injection HN as <- <- <-; injection HW as <- <-; split; [arith|]; auto|]. destruct (need k G1 b) as [[[n1 []] e1]|]; try discriminate. injection HN as <- <- <-. destruct (work k G1 b) as [[w1 p1]|]; [|discriminate]. injection HW as <- <-.
      split; [arith|]. split; [arith|]. split; [arith|]. right. split; [arith|]. exists n1, e1, w1, p1. split; [reflexivity|]. split; [reflexivity|]. arith. }
    destruct HX as (L1 & L2 & L3 & L4). clear HN HW.
    pose proof (IH b Gb Sin k G c s n0 c0 e0 w p E Ew Hw HG ltac:(arith)) as HI. pose proof (rrun_goal f b Gb k G c s n0 c0 e0 E Hw HG ltac:(arith)) as HP.
    rewrite asks_then, rrun_eval. destruct (rrun parser_atn f b c s) as [s'|s' m' e|]; cbn [rthen]; [| |exact I].
    2:{ rewrite Nat.add_0_r. eapply cnt_weak; [| |exact HI]; arith. }
    cbn [post] in HP. destruct HP as (H1 & H2 & H3). apply cnt_spent in HI.
    destruct (sync_both m c s' H1 (mem_in _ Hm)) as [(s2 & Hw2 & Hs2 & S1 & S2)|(e & S1 & S2 & _)]; rewrite S1, S2.
    2:{ rewrite Nat.add_0_r. apply (spent_cnt s s' (fetch 2 s') _ _ w p); [exact HI|apply step_le; exact H2|eauto|reflexivity|arith|arith]. }
    assert (Hst : step s s2) by (eapply step_trans; eassumption).
    assert (HS : exists r0, spent s s2 (asks (rrun_p f b c s)) w r0 /\ (r0 + wC <= R)%nat).
    { destruct L4 as [-> |[L4 _]]; [exists p; split; [apply (spent_lt s s'); auto|arith]|]. exists (Nat.max w p). split; [apply (spent_then s s'); assumption|arith]. }
    destruct HS as (r0 & HS & Hr0). destruct (la_test x (la1 (p_rest s2))) eqn:El.
    + apply (next f IH (LoopLa b m x) c s s2 _ w r0); [exact Gx|exact Hs|exact Hst|exact Hw2|arith|exact HS| |exact Hr0].
      intros E3 E4. destruct L4 as [-> |(_ & n1 & e1 & w1 & p1 & E1 & E2 & L5 & L6 & L7)]; [specialize (H3 eq_refl); apply step_le in Hs2; arith|]. destruct k as [|k]; [rewrite need_0 in E1; discriminate E1|].
      exists (S (S k)), G1, (S n1), true, e1, w1, (p1 + wC)%nat. rewrite need_S, work_S. fold G1. rewrite (progresses_need _ _ _ _ _ _ E1), E1, E2. split; [reflexivity|]. split; [reflexivity|]. split; [|arith]. apply in_filter; [apply all_in|]. rewrite <- E4. exact El.
    + cbn [asks]. rewrite Nat.add_0_r. apply (cnt_after s s2 _ _ w r0); [exact HS|exact Hst|auto|arith|arith].
  - (* LoopPred *)
    assert (Gx := Hg). destruct Hin as [Hm Gb]. set (G1 := filter (alt_ok (hd 0 (alternatives parser_atn d))) all_ttypes) in *.
    destruct (need k G b) as [[[n0 c0] e0]|] eqn:E; [|discriminate]. destruct (work k G b) as [[w p]|] eqn:Ew; [|discriminate]. rewrite (progresses_need _ _ _ _ _ _ E) in HW.
    assert (HX : (n0 < n)%nat /\ (w <= W)%nat /\ (S (p + wC) <= R)%nat /\ (c0 = true \/ ((S (w + wC) <= R)%nat /\ (S w <= W)%nat /\ exists n1 e1 w1 p1, need k G1 b = Some (n1, true, e1) /\ work k G1 b = Some (w1, p1) /\ (S n1 < n)%nat /\ (S (w + w1) <= W)%nat /\ (S (w + S (p1 + wC)) <= R)%nat))).
    { destruct c0; [injection HN as <- <- <-; injection HW as <- <-; split; [arith|]; auto|]. destruct (need k G1 b) as [[[n1 []] e1]|]; try discriminate. injection HN as <- <- <-. destruct (work k G1 b) as [[w1 p1]|]; [|discriminate]. injection HW as <- <-.
      split; [arith|]. split; [arith|]. split; [arith|]. right. split; [arith|]. split; [arith|]. exists n1, e1, w1, p1. split; [reflexivity|]. split; [reflexivity|]. arith. }
    destruct HX as (L1 & L2 & L3 & L4). clear HN HW.
    pose proof (IH b Gb Sin k G c s n0 c0 e0 w p E Ew Hw HG ltac:(arith)) as HI. pose proof (rrun_goal f b Gb k G c s n0 c0 e0 E Hw HG ltac:(arith)) as HP.
    rewrite asks_then, rrun_eval. destruct (rrun parser_atn f b c s) as [s'|s' m' e|]; cbn [rthen]; [| |exact I].
    2:{ rewrite Nat.add_0_r. eapply cnt_weak; [| |exact HI]; arith. }
    cbn [post] in HP. destruct HP as (H1 & H2 & H3). apply cnt_spent in HI.
    destruct (sync_both m c s' H1 (mem_in _ Hm)) as [(s2 & Hw2 & Hs2 & S1 & S2)|(e & S1 & S2 & _)]; rewrite S1, S2.
    2:{ rewrite Nat.add_0_r. apply (spent_cnt s s' (fetch 2 s') _ _ w p); [exact HI|apply step_le; exact H2|eauto|reflexivity|arith|arith]. }
    assert (Hst : step s s2) by (eapply step_trans; eassumption).
    destruct (predict_both m d c s2 Hw2) as [(i & t & s3 & Er3 & Ep3 & P1 & P2 & Hi & Ht & Ha)|(s3 & e & Er3 & Ep3 & P1 & P2)]; rewrite P1, P2;
      (assert (Hst3 : step s s3) by (eapply same_step; eassumption)); (assert (Hst3' : step s' s3) by (eapply same_step; eassumption));
      (assert (HS : exists w0 r0, spent s s3 (S (asks (rrun_p f b c s))) w0 r0 /\ (r0 + wC <= R)%nat /\ (w0 <= W)%nat /\ (w0 <= S w)%nat);
       [destruct L4 as [-> |(L4 & L5 & _)]; [exists 0%nat, (S p); split; [|arith]; specialize (H3 eq_refl); pose proof (spent_lt s s' s3 _ _ _ HI H3 Hst3') as HS; destruct (spent_S _ _ _ _ _ HS) as [HS1 HS2]; split; [exact HS1|apply step_le in Hst3'; intros; arith]|];
        exists (S w), (S (Nat.max w p)); split; [apply spent_S, (spent_then s s'); assumption|arith]|]); destruct HS as (w0 & r0 & HS & Hr0 & Hw0 & Hw1); rewrite <- plus_n_Sm, <- plus_Sn_m.
    + destruct (Nat.eqb i 1) eqn:Ei.
      * apply Nat.eqb_eq in Ei. subst i. apply hd_nth in Ht. subst t. apply (next f IH (LoopPred b m d) c s s3 _ w0 r0); [exact Gx|exact Hs|exact Hst3|eapply same_wfp; eassumption|arith|exact HS| |exact Hr0].
        intros E3 E4. destruct L4 as [-> |(_ & _ & n1 & e1 & w1 & p1 & E1 & E2 & L5 & L6 & L7)]; [specialize (H3 eq_refl); apply step_le in Hst3'; arith|]. destruct k as [|k]; [rewrite need_0 in E1; discriminate E1|].
        exists (S (S k)), G1, (S n1), true, e1, w1, (S (p1 + wC))%nat. rewrite need_S, work_S. fold G1. rewrite (progresses_need _ _ _ _ _ _ E1), E1, E2. split; [reflexivity|]. split; [reflexivity|]. split; [|arith]. apply in_filter; [apply all_in|]. rewrite <- E4, Er3. exact Ha.
      * cbn [asks]. rewrite Nat.add_0_r. apply (cnt_after s s3 _ _ w0 r0); [exact HS|exact Hst3|auto|arith|arith].
    + rewrite Nat.add_0_r. apply (cnt_after s s3 _ _ w0 r0); [exact HS|exact Hst3|eauto|arith|arith].
Qed.
