(** The number of predictions of the recovering parser: linear in the number of tokens. *)
From Verif Require Import Base Regex LexRules Lexer Grammar Antlr Ast Builder Parser GenParser Atn AllStar ContextData AllStarFacts AllStarLoop AllStarNet GenFacts Recover RecoverPred RecoverNeed RecoverTerm
  Cache CacheFacts Cached CachedFacts WorkSpec WorkNeed.
Local Open Scope Z_scope.
Opaque parser_atn need good ns_len work sound expected next_has next_eps recovery_set adaptive_predict lookahead set_text predicted looked Cache.walk dstart.

Lemma asks_bind {A B} (p : dprog A) (k : A -> dprog B) : asks (bind p k) = (asks p + asks (k (evalp p)))%nat.
Proof. induction p as [r|d w j IH]; [reflexivity|]. cbn [bind asks Cache.eval]. rewrite IH. reflexivity. Qed.
Lemma work_0 G x : work 0 G x = None. Proof. Transparent work. reflexivity. Opaque work. Qed.
Lemma work_S k G x : work (S k) G x =
    match x with
    | Match _ _ | MatchSet _ _ _ => Some (O, O)
    | Call _ r => match work k G (method r) with Some (w, p) => Some (w, Nat.max w p) | None => None end
    | Seq a b =>
        match work k G a with
        | Some (w, p) =>
            if progresses k G a then Some (w, p + wC)%nat
            else match work k G b with Some (w', p') => Some (w + w', Nat.max (w + p') (p + wC))%nat | None => None end
        | None => None
        end
    | Switch m cases =>
        match maxes (map (fun q => let G' := filter (la_test (fst q)) G in if empty G' then Some (O, O) else work k G' (snd q)) cases) with
        | Some (w, p) => Some (w, Nat.max wC p)
        | None => None
        end
    | IfLa m x b =>
        let G' := filter (la_test x) G in
        if empty G' then Some (O, wC) else match work k G' b with Some (w, p) => Some (w, Nat.max wC p) | None => None end
    | Pred m d l =>
        match maxes (map (fun q => let G' := filter (alt_ok (fst q)) G in if empty G' then Some (O, O) else work k G' (snd q)) (combine (alternatives parser_atn d) l)) with
        | Some (w, p) => Some (S w, S (Nat.max wC p))
        | None => None
        end
    | PredOpt m d b =>
        let G' := filter (alt_ok (hd 0 (alternatives parser_atn d))) G in
        if empty G' then Some (1, S wC)%nat else match work k G' b with Some (w, p) => Some (S w, S (Nat.max wC p)) | None => None end
    | DoLa m b m' x => match work k G (LoopLa b m' x) with Some (w, p) => Some (w, Nat.max wC p) | None => None end
    | DoPred m b m' d => match work k G (LoopPred b m' d) with Some (w, p) => Some (w, Nat.max wC p) | None => None end
    | LoopLa b m x =>
        match work k G b with
        | Some (w, p) =>
            if progresses k G b then Some (w, p + wC)%nat
            else match work k (filter (la_test x) all_ttypes) b with Some (w', p') => Some (w + w', Nat.max (p + wC) (w + (p' + wC)))%nat | None => None end
        | None => None
        end
    | LoopPred b m d =>
        match work k G b with
        | Some (w, p) =>
            if progresses k G b then Some (w, S (p + wC))%nat
            else match work k (filter (alt_ok (hd 0 (alternatives parser_atn d))) all_ttypes) b with Some (w', p') => Some (S (w + w'), Nat.max (S (p + wC)) (S (w + S (p' + wC))))%nat | None => None end
        | None => None
        end
    end.
Proof. Transparent work. reflexivity. Opaque work. Qed.
Lemma maxes_in l w p y : maxes l = Some (w, p) -> In y l -> exists w' p', y = Some (w', p') /\ (w' <= w)%nat /\ (p' <= p)%nat.
Proof.
  revert w p. induction l as [|z l IH]; intros w p H Hy; [contradiction|]. cbn [maxes fold_right] in H. fold (maxes l) in H. destruct z as [[w1 p1]|]; [|discriminate].
  destruct (maxes l) as [[w2 p2]|] eqn:E; [|discriminate]. injection H as <- <-. destruct Hy as [<-|Hy].
  - exists w1, p1. split; [reflexivity|]. lia.
  - destruct (IH _ _ eq_refl Hy) as (w' & p' & -> & H1 & H2). exists w', p'. split; [reflexivity|]. lia.
Qed.
Lemma fits_some x : fits x = true -> exists w p, work 60 all_ttypes x = Some (w, p) /\ (w <= wC)%nat /\ (p <= wK + wC)%nat.
Proof. unfold fits. destruct (work 60 all_ttypes x) as [[w p]|]; [|discriminate]. intros H. apply andb_prop in H. destruct H as [H1 H2]. exists w, p. split; [reflexivity|]. split; apply Nat.leb_le; assumption. Qed.

Definition cnt (s : pst) (r : rres) (a W R : nat) : Prop :=
  match r with
  | RNormal s' | RExn s' _ _ => ((phi s' < phi s)%nat -> (a + wK + wK * phi s' <= wK * phi s + R)%nat) /\ ((phi s <= phi s')%nat -> (a <= W)%nat)
  | RFuel => True
  end.
Definition goalw (f : nat) (x : stm) : Prop := forall k G c s n cn ce W R, need k G x = Some (n, cn, ce) -> work k G x = Some (W, R) -> wfp s -> In (la1 (p_rest s)) G ->
  (bnd * phi s + n <= f)%nat -> cnt s (rrun parser_atn f x c s) (asks (rrun_p f x c s)) W R.
Lemma cnt_weak s r a W R W' R' : (W <= W')%nat -> (R <= R')%nat -> cnt s r a W R -> cnt s r a W' R'.
Proof. intros H1 H2. destruct r as [s'|s' m e|]; cbn [cnt]; auto; intros [A B]; split; intros H; [specialize (A H)|specialize (B H)|specialize (A H)|specialize (B H)]; lia. Qed.
(** [a0] predictions up to [s]. *)
Definition spent (s0 s : pst) (a0 W0 R0 : nat) : Prop :=
  ((phi s < phi s0)%nat -> (a0 + wK + wK * phi s <= wK * phi s0 + R0)%nat) /\ (phi s = phi s0 -> (a0 <= W0)%nat).
Lemma spent_0 s0 s : step s0 s -> spent s0 s 0 0 0.
Proof. intros H. apply step_le in H. split; intros H'; unfold wK; lia. Qed.
Lemma spent_1 s0 s : step s0 s -> spent s0 s 1 1 1.
Proof. intros H. apply step_le in H. split; intros H'; unfold wK; lia. Qed.
Lemma spent_S s0 s a W R : spent s0 s a W R -> spent s0 s (S a) (S W) (S R).
Proof. intros [A B]. split; intros H; [specialize (A H)|specialize (B H)]; lia. Qed.
Lemma spent_more s0 s s' a W R : spent s0 s a W R -> step s s' -> (phi s <= phi s0)%nat -> (W <= R)%nat -> spent s0 s' a W R.
Proof. intros [A B] Hs Hl HR. apply step_le in Hs. unfold spent, wK in *. split; intros H; [|apply B; lia]. destruct (Nat.eq_dec (phi s) (phi s0)) as [E|E]; [specialize (B E)|specialize (A ltac:(lia))]; lia. Qed.
Lemma spent_cnt s0 s s' r a W R W' R' : spent s0 s a W R -> (phi s <= phi s0)%nat -> (r = RNormal s' \/ exists m e, r = RExn s' m e) -> phi s' = phi s -> (W <= W')%nat -> (R <= R')%nat -> cnt s0 r a W' R'.
Proof. intros [A B] Hl [->|(m & e & ->)] E HW HR; cbn [cnt]; rewrite E; (split; intros H; [specialize (A H)|specialize (B ltac:(lia))]; lia). Qed.
Section Main.
  Variable f : nat.
  Hypothesis IH : forall x, good x = true -> sound x = true -> goalw f x.
  (** After [a0] predictions and a step, one more statement. *)
  Lemma next x c s0 s a0 W0 R0 W R : good x = true -> sound x = true -> step s0 s -> wfp s -> (bnd * phi s0 <= f)%nat -> spent s0 s a0 W0 R0 ->
    (phi s = phi s0 -> p_rest s = p_rest s0 -> exists k G n cn ce W1 R1, need k G x = Some (n, cn, ce) /\ work k G x = Some (W1, R1) /\ In (la1 (p_rest s0)) G /\ (bnd * phi s0 + n <= f)%nat /\ (W0 + W1 <= W)%nat /\ (W0 + R1 <= R)%nat) ->
    (R0 + wC <= R)%nat -> cnt s0 (rrun parser_atn f x c s) (a0 + asks (rrun_p f x c s)) W R.
  Proof.
    intros Hg Hs Hst Hw Hf [A B] HN HR. pose proof (step_le _ _ Hst) as Hle. destruct (good_inv x Hg) as [Hc _]. destruct (Nat.eq_dec (phi s) (phi s0)) as [E|E].
    - assert (Er : p_rest s = p_rest s0) by (destruct Hst as [Hst|[Hst _]]; [lia|exact Hst]). destruct (HN E Er) as (k & G & n & cn & ce & W1 & R1 & H1 & H2 & H3 & H4 & H5 & H6). specialize (B E).
      pose proof (IH x Hg Hs k G c s n cn ce W1 R1 H1 H2 Hw ltac:(rewrite Er; exact H3) ltac:(rewrite E; exact H4)) as HI.
      destruct (rrun parser_atn f x c s) as [s'|s' m e|]; cbn [cnt] in *; [| |exact I]; rewrite E in HI; destruct HI as [I1 I2]; (split; intros H; [specialize (I1 H)|specialize (I2 H)]; lia).
    - assert (Hlt : (phi s < phi s0)%nat) by lia. specialize (A Hlt). destruct (chk_some x Hc) as (n & cn & ce & Hn & Hb). destruct (sound_inv x Hs) as [Hfit _]. destruct (fits_some x Hfit) as (w & p & Hwp & Hw1 & Hp1).
      assert (Hf' : (bnd * phi s + n <= f)%nat) by (unfold bnd in *; nia).
      pose proof (IH x Hg Hs 60%nat all_ttypes c s n cn ce w p Hn Hwp Hw (all_in _) Hf') as HI. pose proof (rrun_goal f x Hg 60%nat all_ttypes c s n cn ce Hn Hw (all_in _) Hf') as HP.
      destruct (rrun parser_atn f x c s) as [s'|s' m e|]; cbn [cnt post] in *; [| |exact I]; destruct HI as [I1 I2]; destruct HP as (_ & HP & _); apply step_le in HP; unfold wK in *;
        (split; [|intros H; lia]); intros H; (destruct (Nat.eq_dec (phi s') (phi s)) as [E'|E']; [rewrite E' in *; specialize (I2 (Nat.le_refl _))|specialize (I1 ltac:(lia))]); lia.
  Qed.
End Main.
Lemma sync_both n c s : wfp s -> In n ns ->
  (exists s', wfp s' /\ step s s' /\ (forall k, sync_ parser_atn n c s k = k s') /\ forall k, sync_p n c s k = k s') \/
  (exists e, (forall k, sync_ parser_atn n c s k = RExn (fetch 2 s) n e) /\ (forall k, asks (sync_p n c s k) = O) /\ next_has parser_atn n (la1 (p_rest s)) || next_eps parser_atn n = false).
Proof.
  intros H Hn. unfold sync_, sync_p. destruct (p_mode s); [left; exists s; split; [exact H|split; [apply step_refl|split; reflexivity]]|].
  destruct (next_has parser_atn n (la1 (p_rest s)) || next_eps parser_atn n) eqn:E; [left; exists s; split; [exact H|split; [apply step_refl|split; reflexivity]]|].
  destruct (existsb _ [3; 4; 5; 10]).
  - assert (HE : la1 (p_rest s) = EOF -> expected parser_atn n c EOF = false). { intros E0. rewrite E0 in E. apply orb_false_elim in E. destruct E as [E1 E2]. Transparent expected. unfold expected. rewrite E1, E2. reflexivity. Opaque expected. }
    pose proof (delete_step n c s H HE) as HD. destruct (delete parser_atn n c s) as [s1 []].
    + destruct HD as [H1 H2]. left. exists s1. split; [exact H1|]. split; [left; exact H2|split; reflexivity].
    + subst s1. right. eexists. split; [reflexivity|split; reflexivity].
  - destruct (existsb _ [9; 11]); [|left; exists s; split; [exact H|split; [apply step_refl|split; reflexivity]]]. left. unfold consume_until. set (s1 := report_unwanted parser_atn n c s).
    assert (Er : p_rest s1 = p_rest s) by (apply report_rest). assert (Ep : phi s1 = phi s) by (apply report_phi). assert (H1 : wfp s1) by (unfold wfp; rewrite Er; exact H).
    destruct (until_step (fun t => expected parser_atn n c t || recovery_set parser_atn c t) (length (p_rest s1)) s1 H1) as [H2 H3]. eexists. split; [exact H2|]. split; [|split; reflexivity].
    eapply step_trans; [|exact H3]. right. split; [exact Er|rewrite Ep; apply Nat.le_refl].
Qed.
Lemma predict_both n d c s : wfp s ->
  (exists i t s', p_rest s' = p_rest s /\ phi s' = phi s /\ (forall k, predict_ parser_atn n d c s k = k i s') /\ (forall k, asks (predict_p n d c s k) = S (asks (k i s'))) /\ (1 <= i)%nat /\ nth_error (alternatives parser_atn d) (i - 1) = Some t /\ alt_ok t (la1 (p_rest s)) = true) \/
  (exists s' e, p_rest s' = p_rest s /\ phi s' = phi s /\ (forall k, predict_ parser_atn n d c s k = RExn s' n e) /\ (forall k, asks (predict_p n d c s k) = 1%nat)).
Proof.
  intros H. unfold predict_, predict_p. cbn [asks]. rewrite looked_right, predicted_right. destruct (la1_in s H) as (k0 & r & Er & El). destruct (adaptive_predict parser_atn d c (types_of (p_rest s))) as [i|j] eqn:E; [left|right; exists (fetch (lookahead parser_atn d c (types_of (p_rest s))) s), (ENoViable j); split; [reflexivity|split; [reflexivity|split; reflexivity]]].
  assert (E' := E). rewrite Er in E'. cbn [types_of map] in E'. destruct (net_begins _ _ _ _ _ E') as (t & Ht & Hi & Hb). exists i, t, (fetch (lookahead parser_atn d c (types_of (p_rest s))) s). split; [reflexivity|]. split; [reflexivity|]. split; [reflexivity|]. split; [reflexivity|]. split; [exact Hi|]. split; [exact Ht|]. rewrite El. exact Hb.
Qed.
Lemma asks_then x k : asks (rthen_p x k) = (asks x + match evalp x with RNormal s => asks (k s) | _ => O end)%nat.
Proof. unfold rthen_p. rewrite asks_bind. destruct (evalp x); reflexivity. Qed.
Lemma asks_caught c x : asks (caught_p c x) = asks x.
Proof. unfold caught_p. rewrite asks_bind. cbn [asks]. apply Nat.add_0_r. Qed.
Lemma cnt_spent s0 s a W R : cnt s0 (RNormal s) a W R -> spent s0 s a W R.
Proof. cbn [cnt]. intros [A B]. split; [exact A|]. intros E. apply B. lia. Qed.
