(** How far [adaptivePredict] has read when it finds no viable alternative. *)
From Verif Require Import Base LexRules Lexer Grammar Antlr GenParser Atn AtnFacts AllStar AllStarFacts AllStarLoop AllStarNet GenFacts Recover RecoverComp.
Local Open Scope Z_scope.
Transparent parser_atn inner depth.
Opaque all_done.
Lemma edges_sym : forallb (fun e => match fst (snd e) with Epsilon | RuleT _ _ _ => true | l => existsb (fun t => matches parser_atn l (tnum t)) all_ttypes end) (a_edges parser_atn) = true.
Proof. vm_compute. reflexivity. Qed.
Lemma decisions_silent : forallb (fun n => forallb (fun e => match fst e with Epsilon => true | _ => false end) (out parser_atn n)) (a_decisions parser_atn) = true.
Proof. vm_compute. reflexivity. Qed.
Opaque parser_atn inner inner_ok depth.
Lemma rd_comp s : AllStarFacts.rd parser_atn s -> comp s.
Proof.
  intros (l & t & Hin & Hl). apply (comp_edge s l t Hin (target_comp _ _ _ Hin)). pose proof edges_sym as HE. rewrite forallb_forall in HE. specialize (HE _ (out_edge _ _ _ Hin)). cbn [fst snd] in HE.
  destruct l; try contradiction; try exact I; (apply existsb_exists in HE; destruct HE as (y & _ & Hy); exists y; exact Hy).
Qed.
Lemma alternative_edge d t n : nth_error (a_decisions parser_atn) d = Some n -> In t (alternatives parser_atn d) -> In (Epsilon, t) (out parser_atn n).
Proof.
  intros Hd Ht. unfold alternatives in Ht. rewrite Hd in Ht. apply in_map_iff in Ht. destruct Ht as ([l t'] & <- & Hi). cbn [snd]. pose proof decisions_silent as HD. rewrite forallb_forall in HD. specialize (HD _ (nth_error_In _ _ Hd)). rewrite forallb_forall in HD. specialize (HD _ Hi). cbn [fst] in HD. destruct l; try discriminate. exact Hi.
Qed.
Lemma in_add k ks x : In x (add k ks) -> k_outer x = false -> x = k \/ In x ks.
Proof.
  induction ks as [|k' ks IH]; cbn [add]; [intros [<-|[]] _; auto|]. destruct (same_conf k k').
  - intros [<-|H] Ho; [|right; right; exact H]. cbn [k_outer] in Ho. apply orb_false_elim in Ho. right. left. destruct Ho as [H1 H2]. rewrite H1, H2. clear IH. destruct k'. cbn in H2. rewrite H2. reflexivity.
  - intros [<-|H] Ho; [right; left; reflexivity|]. destruct (IH H Ho) as [->|Hi]; [left; reflexivity|right; right; exact Hi].
Qed.
Lemma in_collect ks x : In x (collect ks) -> k_outer x = false -> In x ks.
Proof.
  unfold collect. assert (HG : forall ks r, In x (fold_left (fun r k => add k r) ks r) -> k_outer x = false -> In x ks \/ In x r).
  { induction ks0 as [|k ks0 IH]; intros r H Ho; cbn [fold_left] in H; [right; exact H|]. destruct (IH _ H Ho) as [Hi|Hi]; [left; right; exact Hi|]. destruct (in_add _ _ _ Hi Ho) as [->|Hi']; [left; left; reflexivity|right; exact Hi']. }
  intros H Ho. destruct (HG ks [] H Ho) as [Hi|[]]. exact Hi.
Qed.
Lemma collect_ne ks : collect ks <> [] -> ks <> [].
Proof. intros H ->. apply H. reflexivity. Qed.
Lemma close_sound full st : forall s s' st', In (s', st', false) (close parser_atn full s st) -> creach parser_atn s st s' st' /\ live parser_atn s' st'.
Proof.
  induction st as [|f st IH]; intros s s' st' H; cbn [close] in H; apply in_app_or in H; (destruct H as [H|H]).
  - apply in_map_iff in H. destruct H as ([s1 l1] & E & H). cbn [fst snd] in E. injection E as <- <-. rewrite app_nil_r. apply (proj1 (inner_sound parser_atn depth s)) in H. split; [tauto|left; tauto].
  - pose proof (proj2 (inner_sound parser_atn depth s)) as HS. destruct (snd (inner parser_atn depth s)) as [|e0 es]; [contradiction|]. apply in_flat_map in H. destruct H as (e & Hi & H).
    assert (E : s' = e /\ st' = []). { destruct full; [destruct H as [H|[]]; injection H as <- <-; auto|]. unfold after in H. apply in_app_or in H. destruct H as [H|H].
      - destruct (AllStar.follows parser_atn e); [|destruct H]. destruct H as [H|[]]. injection H as <- <-. auto.
      - apply in_flat_map in H. destruct H as (t & _ & H). apply in_app_or in H. destruct H as [H|H]; [apply in_map_iff in H; destruct H as (? & H & _); discriminate|]. apply in_flat_map in H. destruct H as (e1 & _ & H). destruct (AllStar.follows parser_atn e1); [destruct H as [H|[]]; discriminate|destruct H]. }
    destruct E as [-> ->]. destruct (HS e Hi) as [H1 H2]. split; [exact H2|right; auto].
  - apply in_map_iff in H. destruct H as ([s1 l1] & E & H). cbn [fst snd] in E. injection E as <- <-. apply (proj1 (inner_sound parser_atn depth s)) in H. split; [|left; tauto]. exact (creach_lift _ _ _ _ _ (f :: st) (proj2 H)).
  - pose proof (proj2 (inner_sound parser_atn depth s)) as HS. destruct (snd (inner parser_atn depth s)) as [|e0 es]; [contradiction|]. apply IH in H. split; [|exact (proj2 H)].
    destruct (HS e0 (or_introl eq_refl)) as [H3 H4]. eapply creach_trans; [exact (creach_lift _ _ _ _ _ (f :: st) H4)|]. apply cr_ret; [exact H3|exact (proj1 H)].
Qed.
Lemma close_inside st s s' st' o : In (s', st', o) (close parser_atn true s st) -> o = false.
Proof. intros H. apply (close_true parser_atn net_stop net_depth) in H. exact (proj1 H). Qed.

Section View.
  Variable d : nat.
  Variable c : list Z.
  Hypothesis Hready : ready (fol c).
  Hypothesis Heof : forall t w, In t (alternatives parser_atn d) -> reach parser_atn t (fol c) w -> In EOF w.
  Definition tail (full : bool) : list Z := if full then [] else fol c.
  Definition path (w : list ttype) : Prop := w = [] \/ exists t z, In t (alternatives parser_atn d) /\ reach parser_atn t (fol c) (w ++ z).
  (** The configuration is reached by reading [w], inside the rule and those it has called. *)
  Definition sound (full : bool) (w : list ttype) (k : conf) : Prop :=
    (exists t, In t (alternatives parser_atn d) /\ forall z, reach parser_atn (k_state k) (k_ctx k ++ tail full) z -> reach parser_atn t (fol c) (w ++ z)) /\
    ready (k_ctx k ++ tail full) /\ comp (k_state k).
  Definition snd1 (full : bool) (w : list ttype) (ks : list conf) : Prop := forall k, In k ks -> k_outer k = false -> sound full w k.
  Definition inside (ks : list conf) : Prop := forall k, In k ks -> k_outer k = false.
  Definition stops (ks : list conf) : Prop := forall k, In k ks -> is_stop parser_atn (k_state k) = true -> k_ctx k = [].
  Lemma sound_path full w k : sound full w k -> path w.
  Proof. intros ((t & Ht & H) & Hr & Hc). right. destruct (comp_ready _ _ Hc Hr) as (z & Hz). exists t, z. auto. Qed.
  Lemma live_comp s st : live parser_atn s st -> comp s.
  Proof. intros [H|[H _]]; [apply rd_comp; exact H|apply comp_stop; exact H]. Qed.
  Lemma creach_ready s st s' st' : creach parser_atn s st s' st' -> ready st -> ready st'.
  Proof.
    intros H HR. destruct (frames_comp _ _ _ _ H _ eq_refl) as (a' & Ha & b' & -> & x & ->). apply ready_app; [exact Ha|]. clear -HR. induction x as [|y x IH]; [exact HR|]. apply IH. exact (proj2 HR).
  Qed.
  Lemma closure_sound full w k k' : sound full w k -> In k' (closure parser_atn full k) -> k_outer k' = false -> sound full w k'.
  Proof.
    intros ((t & Ht & H) & Hr & Hc) Hin Ho. unfold closure in Hin. apply in_map_iff in Hin. destruct Hin as ([[s' st'] o] & <- & Hin). cbn [fst snd k_outer k_state k_ctx] in *. apply orb_false_elim in Ho. destruct Ho as [_ ->].
    apply close_sound in Hin. destruct Hin as [Hcr Hl]. apply (creach_lift _ _ _ _ _ (tail full)) in Hcr. unfold sound. cbn [k_state k_ctx]. split; [|split; [exact (creach_ready _ _ _ _ Hcr Hr)|exact (live_comp _ _ Hl)]].
    exists t. split; [exact Ht|]. intros z Hz. apply H. eapply creach_reach; eassumption.
  Qed.
  Lemma move_sound full w k k' x : sound full w k -> In k' (move parser_atn (tnum x) k) -> sound full (w ++ [x]) k'.
  Proof.
    intros ((t & Ht & H) & Hr & Hc) Hin. unfold move in Hin. apply in_map_iff in Hin. destruct Hin as ([l t'] & <- & Hin). apply filter_In in Hin. destruct Hin as [Hin Hm]. cbn [fst snd] in *. apply matches_ok in Hm. unfold sound. cbn [k_state k_ctx].
    split; [|split; [exact Hr|exact (target_comp _ _ _ Hin)]]. exists t. split; [exact Ht|]. intros z Hz. rewrite <- app_assoc. apply H. eapply r_sym; eassumption.
  Qed.
  Lemma starts_in full st l : forall n k, In k (starts parser_atn full st n l) -> exists t i, In t l /\ In k (closure parser_atn full (mkConf t i st false)).
  Proof.
    induction l as [|t l IH]; intros n k H; cbn [starts] in H; [destruct H|]. apply in_app_or in H. destruct H as [H|H]; [exists t, n; split; [left; reflexivity|exact H]|]. destruct (IH _ _ H) as (t' & i & Hi & Hk). exists t', i. split; [right; exact Hi|exact Hk].
  Qed.
  Lemma alternative_comp t : In t (alternatives parser_atn d) -> comp t.
  Proof.
    intros Ht. unfold alternatives in Ht. destruct (nth_error (a_decisions parser_atn) d) as [n|]; [|destruct Ht]. apply in_map_iff in Ht. destruct Ht as ([l t'] & <- & Hi). exact (target_comp _ _ _ Hi).
  Qed.
  Lemma starts_sound full : snd1 full [] (collect (starts parser_atn full (if full then fol c else []) 1 (alternatives parser_atn d))).
  Proof.
    intros k Hk Ho. apply (in_collect _ _ Hk) in Ho as Hi. apply starts_in in Hi. destruct Hi as (t & i & Ht & Hi). eapply closure_sound; [|exact Hi|exact Ho]. unfold sound. cbn [k_state k_ctx].
    assert (E : (if full then fol c else []) ++ tail full = fol c) by (unfold tail; destruct full; [apply app_nil_r|reflexivity]). rewrite E. split; [|split; [exact Hready|exact (alternative_comp t Ht)]]. exists t. auto.
  Qed.
  (** [computeReachSet] *)
  Lemma inter_sound full w ks x : snd1 full w ks -> snd1 full (w ++ [x]) (inter_of parser_atn ks (tnum x)).
  Proof.
    intros H k Hk Ho. unfold inter_of in Hk. apply in_collect in Hk; [|exact Ho]. apply in_flat_map in Hk. destruct Hk as (k0 & Hk0 & Hk). apply filter_In in Hk0. eapply move_sound; [apply H; [exact (proj1 Hk0)|]|exact Hk].
    unfold move in Hk. apply in_map_iff in Hk. destruct Hk as (e & <- & _). exact Ho.
  Qed.
  Lemma closed_sound full w ks : snd1 full w ks -> snd1 full w (collect (flat_map (closure parser_atn full) ks)).
  Proof.
    intros H k Hk Ho. apply in_collect in Hk; [|exact Ho]. apply in_flat_map in Hk. destruct Hk as (k0 & Hk0 & Hk). eapply closure_sound; [apply H; [exact Hk0|]|exact Hk|exact Ho].
    unfold closure in Hk. apply in_map_iff in Hk. destruct Hk as (e & <- & _). cbn [k_outer] in Ho. apply orb_false_elim in Ho. tauto.
  Qed.
  Lemma step_sound full w ks x : snd1 full w ks -> skipped_of parser_atn full ks (tnum x) = [] -> snd1 full (w ++ [x]) (reach_set parser_atn full ks (tnum x)).
  Proof.
    intros H Hsk. pose proof (inter_sound full w ks x H) as HI. pose proof (closed_sound full _ _ HI) as HC. destruct (reach_set_cases parser_atn full ks (tnum x)) as [(a & _ & ->)|(r' & -> & Hr)]; [exact HI|].
    assert (E : r' = []) by (destruct Hr as [E|[E _]]; [exact E|rewrite Hsk in E; exact E]). rewrite E, app_nil_r. destruct (tnum x =? -1); [|exact HC]. intros k Hk. apply filter_In in Hk. apply HC. exact (proj1 Hk).
  Qed.
  Lemma collect_inside ks : inside ks -> inside (collect ks).
  Proof.
    unfold collect. assert (HG : forall ks r, inside ks -> inside r -> inside (fold_left (fun r k => add k r) ks r)).
    { induction ks0 as [|k ks0 IH]; intros r Hk Hr; cbn [fold_left]; [exact Hr|]. apply IH; [intros y Hy; apply Hk; right; exact Hy|]. assert (Hk0 : k_outer k = false) by (apply Hk; left; reflexivity). clear IH Hk.
      induction r as [|k' r IH]; cbn [add]; [intros y [<-|[]]; exact Hk0|]. assert (Hk' : k_outer k' = false) by (apply Hr; left; reflexivity). destruct (same_conf k k').
      - intros y [<-|Hy]; [cbn [k_outer]; rewrite Hk0, Hk'; reflexivity|apply Hr; right; exact Hy].
      - intros y [<-|Hy]; [exact Hk'|]. apply IH; [intros z Hz; apply Hr; right; exact Hz|exact Hy]. }
    intros H. apply HG; [exact H|intros k []].
  Qed.
  Lemma closures_inside ks : inside ks -> inside (flat_map (closure parser_atn true) ks).
  Proof.
    intros H k Hk. apply in_flat_map in Hk. destruct Hk as (k0 & Hk0 & Hk). unfold closure in Hk. apply in_map_iff in Hk. destruct Hk as ([[s' st'] o] & <- & Hi). cbn [fst snd k_outer]. rewrite (H _ Hk0). apply close_inside in Hi. exact Hi.
  Qed.
  Lemma inter_inside ks x : inside ks -> inside (inter_of parser_atn ks x).
  Proof.
    intros H. unfold inter_of. apply collect_inside. intros k Hk. apply in_flat_map in Hk. destruct Hk as (k0 & Hk0 & Hk). apply filter_In in Hk0. unfold move in Hk. apply in_map_iff in Hk. destruct Hk as (e & <- & _). cbn [k_outer]. apply H. exact (proj1 Hk0).
  Qed.
  Lemma step_inside ks x : inside ks -> inside (reach_set parser_atn true ks x).
  Proof.
    intros H. pose proof (inter_inside ks x H) as HI. pose proof (collect_inside _ (closures_inside _ HI)) as HC. destruct (reach_set_cases parser_atn true ks x) as [(a & _ & ->)|(r' & -> & Hr)]; [exact HI|].
    intros k Hk. apply in_app_or in Hk. destruct Hk as [Hk|Hk].
    - destruct (x =? -1); [apply filter_In in Hk; apply HC; exact (proj1 Hk)|apply HC; exact Hk].
    - destruct Hr as [->|[-> _]]; [destruct Hk|]. unfold skipped_of in Hk. cbn [orb] in Hk. apply filter_In in Hk. apply H. exact (proj1 Hk).
  Qed.
  Lemma closures_stops full ks k : In k (collect (flat_map (closure parser_atn full) ks)) -> k_outer k = false -> is_stop parser_atn (k_state k) = true -> k_ctx k = [].
  Proof.
    intros Hk Ho Hs. apply in_collect in Hk; [|exact Ho]. apply in_flat_map in Hk. destruct Hk as (k0 & _ & Hk). unfold closure in Hk. apply in_map_iff in Hk. destruct Hk as ([[s' st'] o] & <- & Hi). cbn [fst snd k_outer k_state k_ctx] in *. apply orb_false_elim in Ho. destruct Ho as [_ ->].
    apply close_sound in Hi. destruct Hi as [_ [(l & t & Hl & _)|[_ E]]]; [rewrite (net_stop _ Hs) in Hl; destruct Hl|exact E].
  Qed.
  Lemma step_stops ks x : inside ks -> stops ks -> unique_alt (reach_set parser_atn true ks x) = None -> stops (reach_set parser_atn true ks x).
  Proof.
    intros HI HS. pose proof (step_inside ks x HI) as HR. destruct (reach_set_cases parser_atn true ks x) as [(a & Hu & E)|(r' & E & Hr)]; rewrite E in *; [congruence|]. intros _ k Hk. pose proof (HR k Hk) as Ho. apply in_app_or in Hk. destruct Hk as [Hk|Hk].
    - intros Hs. eapply closures_stops; [|exact Ho|exact Hs]. destruct (x =? -1); [apply filter_In in Hk; exact (proj1 Hk)|exact Hk].
    - destruct Hr as [->|[-> _]]; [destruct Hk|]. unfold skipped_of in Hk. cbn [orb] in Hk. apply filter_In in Hk. apply HS. exact (proj1 Hk).
  Qed.
  (** In the full context the end of the outermost rule is reached after EOF only. *)
  Lemma no_skip w ks x : inside ks -> stops ks -> snd1 true w ks -> ~ In EOF w -> skipped_of parser_atn true ks x = [].
  Proof.
    intros HI HS HN Hw. unfold skipped_of. cbn [orb]. destruct (filter _ ks) as [|k l] eqn:E; [reflexivity|]. exfalso. assert (Hk : In k (filter (fun k => is_stop parser_atn (k_state k)) ks)) by (rewrite E; left; reflexivity). apply filter_In in Hk. destruct Hk as [Hk Hs].
    destruct (HN k Hk (HI k Hk)) as ((t & Ht & H) & _ & _). rewrite (HS k Hk Hs) in H. apply Hw. rewrite <- (app_nil_r w). apply (Heof t); [exact Ht|]. apply H. apply r_done. apply is_stop_ok. exact Hs.
  Qed.
  Lemma empty_step full ks x : ks = [] -> reach_set parser_atn full ks x = [].
  Proof. intros ->. unfold reach_set. cbn. destruct full, (x =? -1); reflexivity. Qed.
  Definition upto (j n : nat) (w : list ttype) : list ttype := firstn (Nat.min (j - n) (Nat.pred (length w))) w.
  Lemma upto_zero j n w : (j <= n)%nat -> upto j n w = [].
  Proof. intros H. unfold upto. replace (j - n)%nat with O by lia. reflexivity. Qed.
  Lemma upto_cons j n x w : (n < j)%nat -> w <> [] -> upto j n (x :: w) = x :: upto j (S n) w.
  Proof. intros H Hw. unfold upto. destruct w as [|y w]; [contradiction|]. cbn [length Nat.pred]. replace (j - n)%nat with (S (j - S n)) by lia. cbn [Nat.min firstn]. reflexivity. Qed.
  Lemma full_after w : forall ks n j, exec_full parser_atn ks w n = NoViable j -> (n <= j)%nat.
  Proof.
    induction w as [|x w IH]; intros ks n j H; cbn [exec_full] in H; [injection H as <-; lia|]. destruct (reach_set parser_atn true ks (tnum x)) as [|k0 kr] eqn:Er.
    - unfold no_viable in H. destruct (finished_alt parser_atn ks); [discriminate|]. injection H as <-. lia.
    - destruct (unique_alt _); [discriminate|]. destruct (resolves _); [discriminate|]. apply IH in H. lia.
  Qed.
  Lemma full_path w : forall ks n j r, to_eof w -> inside ks -> stops ks -> snd1 true r ks -> ~ In EOF r -> (ks <> [] \/ r = []) -> exec_full parser_atn ks w n = NoViable j -> path (r ++ upto j n w).
  Proof.
    induction w as [|x w IH]; intros ks n j r Hw HI HS HN Hr Hne H; [destruct Hw|].
    assert (HP : path r). { destruct Hne as [Hne| ->]; [|left; reflexivity]. destruct ks as [|k ks]; [contradiction|]. eapply sound_path. apply HN; [left; reflexivity|apply HI; left; reflexivity]. }
    cbn [exec_full] in H. destruct (reach_set parser_atn true ks (tnum x)) as [|k0 kr] eqn:Er.
    - unfold no_viable in H. destruct (finished_alt parser_atn ks); [discriminate|]. injection H as <-. rewrite upto_zero, app_nil_r by lia. exact HP.
    - rewrite <- Er in H. destruct (unique_alt _) eqn:Hu in H; [discriminate|]. destruct (resolves _) in H; [discriminate|]. pose proof (full_after _ _ _ _ H) as Hj. destruct (to_eof_cons _ _ Hw) as (H1 & H2 & H3). destruct w as [|y w].
      + unfold upto. cbn [length Nat.pred]. rewrite Nat.min_0_r. cbn [firstn]. rewrite app_nil_r. exact HP.
      + rewrite upto_cons by (lia || discriminate). replace (r ++ x :: upto j (S n) (y :: w)) with ((r ++ [x]) ++ upto j (S n) (y :: w)) by (rewrite <- app_assoc; reflexivity).
        eapply IH; [apply H3; discriminate|apply step_inside; exact HI|apply step_stops; [exact HI|exact HS|exact Hu]|apply step_sound; [exact HN|apply (no_skip r); assumption]| |left; rewrite Er; discriminate|exact H].
        intros Hi. apply in_app_or in Hi. destruct Hi as [Hi|[Hi|[]]]; [exact (Hr Hi)|]. discriminate (H1 Hi).
  Qed.
  Lemma sll_after fs w0 w : forall ks n j, exec parser_atn fs w0 ks w n = NoViable j -> (n <= j)%nat \/ exec_full parser_atn fs w0 0 = NoViable j.
  Proof.
    induction w as [|x w IH]; intros ks n j H; cbn [exec] in H; [injection H as <-; left; lia|]. destruct (reach_set parser_atn false ks (tnum x)) as [|k0 kr] eqn:Er.
    - unfold no_viable in H. destruct (finished_alt parser_atn ks); [discriminate|]. injection H as <-. left. lia.
    - destruct (unique_alt _); [discriminate|]. destruct (sll_conflict _ _); [right; exact H|]. apply IH in H. destruct H as [H|H]; [left; lia|right; exact H].
  Qed.
  Lemma not_finished ks : finished_alt parser_atn ks = None -> inside ks.
  Proof.
    intros H k Hk. unfold finished_alt in H. destruct (k_outer k) eqn:E; [|reflexivity]. exfalso.
    match type of H with match ?l with _ => _ end = _ => assert (Hi : In k l) by (apply filter_In; split; [exact Hk|rewrite E; reflexivity]); destruct l; [destruct Hi|discriminate] end.
  Qed.
  Lemma sll_path fs w0 w : (forall j, exec_full parser_atn fs w0 0 = NoViable j -> path (upto j 0 w0)) -> forall ks n j r, to_eof w -> snd1 false r ks -> w0 = r ++ w -> n = length r -> (ks <> [] \/ r = []) -> exec parser_atn fs w0 ks w n = NoViable j -> path (upto j 0 w0).
  Proof.
    intros HF. induction w as [|x w IH]; intros ks n j r Hw HN E0 En Hne H; [destruct Hw|]. cbn [exec] in H. destruct (reach_set parser_atn false ks (tnum x)) as [|k0 kr] eqn:Er.
    - unfold no_viable in H. destruct (finished_alt parser_atn ks) eqn:Ef; [discriminate|]. injection H as <-. apply not_finished in Ef.
      assert (EU : upto n 0 w0 = r). { unfold upto. rewrite E0, En, app_length. cbn [length]. replace (Nat.min _ _) with (length r) by lia. rewrite firstn_app, Nat.sub_diag, firstn_all. apply app_nil_r. }
      rewrite EU. destruct Hne as [Hne| ->]; [|left; reflexivity]. destruct ks as [|k ks]; [contradiction|]. eapply sound_path. apply HN; [left; reflexivity|apply Ef; left; reflexivity].
    - rewrite <- Er in H. destruct (unique_alt _) eqn:Hu in H; [discriminate|]. destruct (sll_conflict _ _) eqn:Hc in H; [exact (HF j H)|]. destruct (to_eof_cons _ _ Hw) as (H1 & H2 & H3). destruct w as [|y w].
      + exfalso. rewrite (H2 eq_refl) in *. cbn [tnum] in *. unfold sll_conflict in Hc. apply orb_false_elim in Hc. destruct Hc as [Hc _].
        assert (Ht : forallb (fun k => is_stop parser_atn (k_state k)) (reach_set parser_atn false ks (-1)) = true) by (apply forallb_forall; intros k Hk; exact (step_eof parser_atn false ks Hu k Hk)). congruence.
      + eapply (IH (reach_set parser_atn false ks (tnum x)) (S n) _ (r ++ [x])); [apply H3; discriminate| |rewrite <- app_assoc; exact E0|rewrite app_length; cbn [length]; lia|left; rewrite Er; discriminate|exact H].
        apply step_sound; [exact HN|]. unfold skipped_of. cbn [orb]. destruct (tnum x =? -1) eqn:Ex; [|reflexivity]. assert (E : x = EOF) by (destruct x; cbn in Ex; congruence). discriminate (H1 E).
  Qed.
  Theorem predict_path w j : to_eof w -> adaptive_predict parser_atn d c w = NoViable j -> path (upto j 0 w).
  Proof.
    intros Hw H. Transparent adaptive_predict. unfold adaptive_predict in H. Opaque adaptive_predict. cbv zeta in H. eapply (sll_path _ _ w) with (r := []); [|exact Hw| |reflexivity|reflexivity|right; reflexivity|exact H].
    - intros i Hi. apply (full_path w _ _ _ [] Hw) in Hi; [exact Hi| | |apply (starts_sound true)|intros []|right; reflexivity].
      + apply collect_inside. intros k Hk. apply starts_in in Hk. destruct Hk as (t & a & _ & Hk). unfold closure in Hk. apply in_map_iff in Hk. destruct Hk as ([[s' st'] o] & <- & Hi'). cbn [fst snd k_outer orb]. apply close_inside in Hi'. exact Hi'.
      + intros k Hk Hs. assert (Ho : k_outer k = false). { revert k Hk Hs. clear. intros k Hk _. revert k Hk. apply collect_inside. intros k Hk. apply starts_in in Hk. destruct Hk as (t & a & _ & Hk). unfold closure in Hk. apply in_map_iff in Hk. destruct Hk as ([[s' st'] o] & <- & Hi'). cbn [fst snd k_outer orb]. apply close_inside in Hi'. exact Hi'. }
        apply in_collect in Hk; [|exact Ho]. apply starts_in in Hk. destruct Hk as (t & a & _ & Hk). unfold closure in Hk. apply in_map_iff in Hk. destruct Hk as ([[s' st'] o] & <- & Hi'). cbn [fst snd k_state k_ctx] in *. pose proof (close_inside _ _ _ _ _ Hi') as ->. apply close_sound in Hi'. destruct Hi' as [_ [(l & t' & Hl & _)|[_ E]]]; [rewrite (net_stop _ Hs) in Hl; destruct Hl|exact E].
    - apply (starts_sound false).
  Qed.
End View.
