(** The words the simulations run on; the parse-tree pass makes the same predictions as the error pass. *)
From Verif Require Import Base Regex LexRules Lexer Grammar Antlr Ast Builder Parser GenParser Atn AllStar ContextData AllStarFacts AllStarLoop AllStarNet GenFacts Recover RecoverPred RecoverNeed RecoverTerm RecoverInv RecoverSim
  Cache CacheFacts Cached CachedFacts WorkSpec WorkNeed WorkCount WorkMain.
Local Open Scope Z_scope.
Opaque parser_atn need good ns_len work sound expected next_has next_eps recovery_set adaptive_predict lookahead set_text predicted looked Cache.walk dstart sync_passes.

Lemma wide_bind {A B} M (p : dprog A) (k : A -> dprog B) : wide M p -> wide M (k (evalp p)) -> wide M (bind p k).
Proof. induction p as [r|d w j IH]; [intros _ H; exact H|]. intros [H1 H2] H3. split; [exact H1|]. apply IH; assumption. Qed.
Lemma wide_mono {A} M M' (p : dprog A) : (M <= M')%nat -> wide M p -> wide M' p.
Proof. intros HM. induction p as [r|d w j IH]; [auto|]. intros [H1 H2]. split; [lia|]. apply IH. exact H2. Qed.
Lemma cost_asks {A} M (p : dprog A) : wide M p -> (cost dstate sym dname A dstart dstep dstop p <= 1 + asks p * (8 * M + 6))%nat.
Proof.
  induction p as [r|d w j IH]; [intros _; cbn; lia|]. intros [H1 H2]. cbn [asks cost]. specialize (IH _ H2). nia.
Qed.

(** ** Lengths *)
Notation len s := (length (p_rest s)).
Lemma len_consume s : (len (consume s) <= len s)%nat.
Proof. unfold consume. destruct (p_rest s) as [|a [|b r]] eqn:E; rewrite ?E; cbn; lia. Qed.
Lemma len_until stop k : forall s, (len (until stop k s) <= len s)%nat.
Proof. induction k as [|k IH]; intros s; [auto|]. cbn [until]. destruct (_ || _); [auto|]. specialize (IH (consume s)). pose proof (len_consume s). lia. Qed.
Lemma len_report t m s : p_rest (report t m s) = p_rest s.
Proof. unfold report. destruct (p_mode s); reflexivity. Qed.
Lemma len_delete n c s : (len (fst (delete parser_atn n c s)) <= len s)%nat.
Proof.
  unfold delete. destruct (expected _ _ _ _); [|auto]. cbn [fst report_match p_rest]. etransitivity; [apply len_consume|]. unfold report_unwanted. rewrite len_report. auto.
Qed.
Lemma len_error e n c s : p_rest (report_error parser_atn e n c s) = p_rest s.
Proof. destruct e; cbn [report_error]; [|apply len_report]. rewrite len_report. destruct (p_mode s); [reflexivity|]. destruct (t_type _); reflexivity. Qed.
Lemma len_recover n c s : (len (recover parser_atn n c s) <= len s)%nat.
Proof.
  unfold recover. set (b := match p_last s with Some _ => _ | None => _ end). clearbody b. unfold consume_until. etransitivity; [apply len_until|]. cbn [p_rest]. destruct b; [apply len_consume|auto].
Qed.
Definition short (M : nat) (r : rres) : Prop := match r with RNormal s | RExn s _ _ => (len s <= M)%nat | RFuel => True end.
Lemma short_inline M n c s : (len s <= M)%nat -> short M (recover_inline parser_atn n c s).
Proof.
  intros H. unfold recover_inline. pose proof (len_delete n c s) as HD. destruct (delete parser_atn n c s) as [s1 b]. cbn [fst] in HD. destruct b; cbn [short]; [pose proof (len_consume s1); lia|].
  destruct (expected _ _ _ _); cbn [short]; [unfold report_missing; rewrite len_report|]; lia.
Qed.
Lemma short_match M s : (len s <= M)%nat -> short M (RNormal (consume (report_match s))).
Proof. intros H. cbn [short]. pose proof (len_consume (report_match s)). cbn [report_match p_rest] in *. lia. Qed.
Definition fine (M : nat) (p : dprog rres) (r : rres) : Prop := wide M p /\ short M r.
Lemma fine_sync M n c s k kr : (len s <= M)%nat -> (forall s', (len s' <= M)%nat -> fine M (k s') (kr s')) -> fine M (sync_p n c s k) (sync_ parser_atn n c s kr).
Proof.
  intros H Hk. unfold sync_p, sync_. destruct (p_mode s); [auto|]. destruct (_ || _); [auto|]. destruct (existsb _ _).
  - pose proof (len_delete n c s) as HD. destruct (delete parser_atn n c s) as [s1 b]. cbn [fst] in HD. destruct b; [apply Hk; lia|]. split; [exact I|]. cbn [short]. lia.
  - destruct (existsb _ _); [|auto]. apply Hk. unfold consume_until. etransitivity; [apply len_until|]. unfold report_unwanted. rewrite len_report. exact H.
Qed.
Lemma fine_predict M n d c s k kr : (len s <= M)%nat -> (forall i s', (len s' <= M)%nat -> fine M (k i s') (kr i s')) -> fine M (predict_p n d c s k) (predict_ parser_atn n d c s kr).
Proof.
  intros H Hk. unfold predict_p, predict_, fine. cbn [wide]. rewrite looked_right, predicted_right. rewrite map_length. unfold types_of at 1. rewrite map_length. destruct (adaptive_predict _ _ _ _) as [i|j].
  - destruct (Hk i (fetch (lookahead parser_atn d c (types_of (p_rest s))) s) H) as [H1 H2]. split; [split; assumption|exact H2].
  - split; [split; [exact H|exact I]|]. exact H.
Qed.
Lemma fine_then M p k kr : fine M p (evalp p) -> (forall s', (len s' <= M)%nat -> fine M (k s') (kr s')) -> fine M (rthen_p p k) (rthen (evalp p) kr).
Proof.
  intros [H1 H2] Hk. unfold rthen_p, fine. destruct (evalp p) as [s'|s' m e|] eqn:E; cbn [rthen short] in *.
  - destruct (Hk s' H2) as [H3 H4]. split; [|exact H4]. apply wide_bind; [exact H1|]. rewrite E. exact H3.
  - split; [|exact H2]. apply wide_bind; [exact H1|]. rewrite E. exact I.
  - split; [|exact I]. apply wide_bind; [exact H1|]. rewrite E. exact I.
Qed.
Lemma short_caught M c r : short M r -> short M (caught parser_atn c r).
Proof. destruct r as [s|s m e|]; cbn [caught short]; auto. intros H. etransitivity; [apply len_recover|]. rewrite len_error. exact H. Qed.
Lemma rrun_fine M f : forall x c s, (len s <= M)%nat -> fine M (rrun_p f x c s) (rrun parser_atn f x c s).
Proof.
  induction f as [|f IH]; intros x c s H; [split; exact I|]. destruct x as [m t|m x l|m r|a b|m l|m x b|m d l|m d b|m b m' x|m b m' d|b m x|b m d]; cbn [rrun_p rrun].
  - split; [exact I|]. destruct (ttype_eqb _ _); [apply short_match|apply short_inline]; exact H.
  - split; [exact I|]. destruct (la_test _ _); [apply short_match|apply short_inline]; exact H.
  - destruct (IH (method r) (m :: c) s H) as [H1 H2]. split; [apply wide_bind; [exact H1|exact I]|apply short_caught; exact H2].
  - rewrite <- (rrun_eval f a). apply fine_then; [rewrite rrun_eval; apply IH; exact H|]. intros s' H'. apply IH. exact H'.
  - apply fine_sync; [exact H|]. intros s' H'. destruct (find _ l); [apply IH; exact H'|]. split; [exact I|exact H'].
  - apply fine_sync; [exact H|]. intros s' H'. destruct (la_test _ _); [apply IH; exact H'|]. split; [exact I|exact H'].
  - apply fine_sync; [exact H|]. intros s' H'. apply fine_predict; [exact H'|]. intros [|i] s2 H2; [split; [exact I|exact H2]|]. destruct (nth_error l i); [apply IH; exact H2|]. split; [exact I|exact H2].
  - apply fine_sync; [exact H|]. intros s' H'. apply fine_predict; [exact H'|]. intros i s2 H2. destruct (Nat.eqb i 1); [apply IH; exact H2|]. split; [exact I|exact H2].
  - apply fine_sync; [exact H|]. intros s' H'. apply IH. exact H'.
  - apply fine_sync; [exact H|]. intros s' H'. apply IH. exact H'.
  - rewrite <- (rrun_eval f b). apply fine_then; [rewrite rrun_eval; apply IH; exact H|]. intros s1 H1. apply fine_sync; [exact H1|]. intros s' H'. destruct (la_test _ _); [apply IH; exact H'|]. split; [exact I|exact H'].
  - rewrite <- (rrun_eval f b). apply fine_then; [rewrite rrun_eval; apply IH; exact H|]. intros s1 H1. apply fine_sync; [exact H1|]. intros s' H'. apply fine_predict; [exact H'|]. intros i s2 H2. destruct (Nat.eqb i 1); [apply IH; exact H2|]. split; [exact I|exact H2].
Qed.

(** ** The parse-tree pass *)
Definition gshort (M : nat) (g : gres) : Prop := match g with GOk _ r => (length r <= M)%nat | _ => True end.
Definition gfine (M : nat) (p : dprog gres) : Prop := wide M p /\ gshort M (evalp p).
Lemma gfine_ret M g : gshort M g -> gfine M (Ret _ _ _ _ g).
Proof. intros H. split; [exact I|exact H]. Qed.
Lemma gfine_then M p k : gfine M p -> (forall r, (length r <= M)%nat -> gfine M (k r)) -> gfine M (gthen p k).
Proof.
  intros [H1 H2] Hk. unfold gthen, gfine. rewrite eval_bind. destruct (evalp p) as [y r| |] eqn:E.
  - destruct (Hk r H2) as [H3 H4]. split.
    + apply wide_bind; [exact H1|]. rewrite E. apply wide_bind; [exact H3|exact I].
    + rewrite eval_bind. destruct (evalp (k r)); exact H4.
  - split; [apply wide_bind; [exact H1|rewrite E; exact I]|exact I].
  - split; [apply wide_bind; [exact H1|rewrite E; exact I]|exact I].
Qed.
Lemma gfine_predict M d c ts k : (length ts <= M)%nat -> (forall i, gfine M (k i)) -> gfine M (gen_predict d c ts k).
Proof.
  intros H Hk. unfold gen_predict, gfine. rewrite eval_ask. cbn [wide]. rewrite map_length. unfold types_of at 1. rewrite map_length. match goal with |- context[k ?a] => destruct (Hk a) as [H1 H2] end. split; [split; assumption|exact H2].
Qed.
Lemma run_fine M f : forall x c ts, (length ts <= M)%nat -> gfine M (run_p f x c ts).
Proof.
  induction f as [|f IH]; intros x c ts H; [split; exact I|]. destruct x as [m t|m x l|m r|a b|m l|m x b|m d l|m d b|m b m' x|m b m' d|b m x|b m d]; cbn [run_p].
  - apply gfine_ret. destruct ts as [|k r]; [exact I|]. destruct (ttype_eqb _ _); [cbn in *; lia|exact I].
  - apply gfine_ret. destruct ts as [|k r]; [exact I|]. destruct (la_test _ _); [cbn in *; lia|exact I].
  - destruct (IH (method r) (m :: c) ts H) as [H1 H2]. split; [apply wide_bind; [exact H1|exact I]|]. rewrite eval_bind. destruct (evalp _); exact H2.
  - apply gfine_then; auto.
  - destruct (sync_passes _ _ _); [|apply gfine_ret; exact I]. destruct (find _ l); [auto|apply gfine_ret; exact I].
  - destruct (sync_passes _ _ _); [|apply gfine_ret; exact I]. destruct (la_test _ _); [auto|apply gfine_ret; exact H].
  - destruct (sync_passes _ _ _); [|apply gfine_ret; exact I]. apply gfine_predict; [exact H|]. intros [[|i]|]; [apply gfine_ret; exact H| |apply gfine_ret; exact I]. destruct (nth_error l i); [auto|apply gfine_ret; exact H].
  - destruct (sync_passes _ _ _); [|apply gfine_ret; exact I]. apply gfine_predict; [exact H|]. intros [[|[|i]]|]; [apply gfine_ret; exact H|auto|apply gfine_ret; exact H|apply gfine_ret; exact I].
  - destruct (sync_passes _ _ _); [auto|apply gfine_ret; exact I].
  - destruct (sync_passes _ _ _); [auto|apply gfine_ret; exact I].
  - apply gfine_then; [auto|]. intros r Hr. destruct (sync_passes _ _ _); [|apply gfine_ret; exact I]. destruct (la_test _ _); [auto|apply gfine_ret; exact Hr].
  - apply gfine_then; [auto|]. intros r Hr. destruct (sync_passes _ _ _); [|apply gfine_ret; exact I]. apply gfine_predict; [exact Hr|]. intros [[|[|i]]|]; [apply gfine_ret; exact Hr|auto|apply gfine_ret; exact Hr|apply gfine_ret; exact I].
Qed.
Lemma asks_gthen p k : asks (gthen p k) = (asks p + match evalp p with GOk _ r => asks (k r) | _ => O end)%nat.
Proof. unfold gthen. rewrite asks_bind. destruct (evalp p); [|reflexivity|reflexivity]. rewrite asks_bind. cbn [asks]. rewrite Nat.add_0_r. reflexivity. Qed.
Lemma sync_pass n c s k : p_mode s = false -> sync_passes parser_atn n (la1 (p_rest s)) = true -> sync_p n c s k = k s.
Proof.
  intros Hm. rewrite sync_eq. unfold sync_p. rewrite Hm. destruct (next_has parser_atn n (la1 (p_rest s)) || next_eps parser_atn n); [reflexivity|]. cbn [orb]. set (ty := state_type parser_atn n). clearbody ty. cbn [existsb]. rewrite !orb_false_r.
  destruct (ty =? 3), (ty =? 4), (ty =? 5), (ty =? 9), (ty =? 10), (ty =? 11); cbn; intros H; try discriminate H; reflexivity.
Qed.
Lemma then_ok a k y r : then_ a k = GOk y r -> exists y1 r1 y2, a = GOk y1 r1 /\ k r1 = GOk y2 r.
Proof. unfold then_. destruct a as [y1 r1| |]; try discriminate. destruct (k r1) as [y2 r2| |] eqn:E; try discriminate. intros H. injection H as _ <-. exists y1, r1, y2. auto. Qed.
Lemma asks_gen d c ts k : asks (gen_predict d c ts k) = S (asks (k (adaptive parser_atn d c (types_of ts)))).
Proof. unfold gen_predict. cbn [asks]. rewrite predicted_right. reflexivity. Qed.
Lemma asks_pred n d c s k i : adaptive parser_atn d c (types_of (p_rest s)) = Some i -> asks (predict_p n d c s k) = S (asks (k i (fetch (lookahead parser_atn d c (types_of (p_rest s))) s))).
Proof. unfold predict_p, adaptive. cbn [asks]. rewrite looked_right, predicted_right. destruct (adaptive_predict _ _ _ _); [|discriminate]. intros H. injection H as ->. reflexivity. Qed.
Lemma good_parts x : good x = true ->
  match x with
  | Match _ _ | MatchSet _ _ _ => True
  | Call n r => not_query r = true
  | Seq a b => good a = true /\ good b = true
  | Switch n l => forallb (fun q => good (snd q)) l = true
  | IfLa n _ b | PredOpt n _ b => good b = true
  | Pred n _ l => forallb good l = true
  | DoLa n b m x => good (LoopLa b m x) = true
  | DoPred n b m d => good (LoopPred b m d) = true
  | LoopLa b m _ | LoopPred b m _ => good b = true
  end.
Proof. intros H. destruct (good_inv x H) as [_ G]. destruct x; auto; tauto. Qed.
Lemma lockstep f : forall f' x c s y r, (f <= f')%nat -> good x = true -> wfp s -> p_mode s = false -> runs f x c (p_rest s) = GOk y r -> asks (run_p f x c (p_rest s)) = asks (rrun_p f' x c s).
Proof.
  assert (HA : forall f0 f' x c s y r, (f0 <= f')%nat -> good x = true -> wfp s -> p_mode s = false -> runs f0 x c (p_rest s) = GOk y r -> exists s', rrun parser_atn f' x c s = RNormal s' /\ p_rest s' = r /\ p_mode s' = false /\ wfp s').
  { intros f0 f' x c s y r Hf Hg Hw Hm H. pose proof (rrun_sim f' x c s Hg Hw Hm) as HS. rewrite (run_mono _ _ f0 f' x c (p_rest s) Hf) in HS by (rewrite H; discriminate). rewrite H in HS. cbn [RecoverSim.sim] in HS. destruct HS as (s' & H1 & H2 & [H3 _] & H4). exists s'. auto. }
  induction f as [|f IH]; intros f' x c s y r Hf Hg Hw Hm H; [discriminate H|]. destruct f' as [|f']; [lia|]. apply le_S_n in Hf. pose proof (good_parts x Hg) as Gp. assert (Gx := Hg). clear Hg.
  destruct x as [m t|m x l|m q|a b|m l|m x b|m d l|m d b|m b m' x|m b m' d|b m x|b m d]; cbn [run_p rrun_p run] in *.
  - reflexivity.
  - reflexivity.
  - rewrite asks_caught, asks_bind. cbn [asks]. rewrite Nat.add_0_r. destruct (runs f (method q) (m :: c) (p_rest s)) as [y' r'| |] eqn:E; try discriminate. eapply IH; [exact Hf|apply good_method; exact Gp|exact Hw|exact Hm|exact E].
  - destruct Gp as [Ga Gb]. apply then_ok in H. destruct H as (y1 & r1 & y2 & H1 & H2). rewrite asks_gthen, asks_then, run_eval, rrun_eval, H1. destruct (HA f f' a c s y1 r1 Hf Ga Hw Hm H1) as (s' & E & Er & Em & Ew). rewrite E. rewrite (IH f' a c s y1 r1) by assumption. f_equal. subst r1. eapply IH; eassumption.
  - destruct (sync_passes parser_atn m (la1 (p_rest s))) eqn:Es; [|discriminate]. rewrite sync_pass by assumption. destruct (find _ l) as [q|] eqn:Ef; [|reflexivity]. eapply IH; [exact Hf| |exact Hw|exact Hm|exact H]. apply find_some in Ef. exact (proj1 (forallb_forall _ _) Gp _ (proj1 Ef)).
  - destruct (sync_passes parser_atn m (la1 (p_rest s))) eqn:Es; [|discriminate]. rewrite sync_pass by assumption. destruct (la_test _ _); [|reflexivity]. eapply IH; eassumption.
  - destruct (sync_passes parser_atn m (la1 (p_rest s))) eqn:Es; [|discriminate]. rewrite sync_pass by assumption. rewrite asks_gen. destruct (adaptive parser_atn d c (types_of (p_rest s))) as [i|] eqn:Ea; [|discriminate]. rewrite (asks_pred _ _ _ _ _ i) by exact Ea. f_equal. destruct i as [|i]; [reflexivity|].
    destruct (nth_error l i) as [b|] eqn:Eb; [|reflexivity]. eapply (IH f' b c (fetch (lookahead parser_atn d c (types_of (p_rest s))) s)); [exact Hf|exact (proj1 (forallb_forall _ _) Gp _ (nth_error_In _ _ Eb))|exact Hw|exact Hm|exact H].
  - destruct (sync_passes parser_atn m (la1 (p_rest s))) eqn:Es; [|discriminate]. rewrite sync_pass by assumption. rewrite asks_gen. destruct (adaptive parser_atn d c (types_of (p_rest s))) as [i|] eqn:Ea; [|discriminate]. rewrite (asks_pred _ _ _ _ _ i) by exact Ea. f_equal. destruct i as [|[|i]]; [reflexivity| |reflexivity]. cbn [Nat.eqb].
    eapply (IH f' b c (fetch (lookahead parser_atn d c (types_of (p_rest s))) s)); [exact Hf|exact Gp|exact Hw|exact Hm|exact H].
  - destruct (sync_passes parser_atn m (la1 (p_rest s))) eqn:Es; [|discriminate]. rewrite sync_pass by assumption. eapply IH; eassumption.
  - destruct (sync_passes parser_atn m (la1 (p_rest s))) eqn:Es; [|discriminate]. rewrite sync_pass by assumption. eapply IH; eassumption.
  - apply then_ok in H. destruct H as (y1 & r1 & y2 & H1 & H2). rewrite asks_gthen, asks_then, run_eval, rrun_eval, H1. destruct (HA f f' b c s y1 r1 Hf Gp Hw Hm H1) as (s' & E & Er & Em & Ew). rewrite E. rewrite (IH f' b c s y1 r1) by assumption. f_equal. subst r1.
    destruct (sync_passes parser_atn m (la1 (p_rest s'))) eqn:Es; [|discriminate]. rewrite sync_pass by assumption. destruct (la_test _ _); [|reflexivity]. eapply IH; eassumption.
  - apply then_ok in H. destruct H as (y1 & r1 & y2 & H1 & H2). rewrite asks_gthen, asks_then, run_eval, rrun_eval, H1. destruct (HA f f' b c s y1 r1 Hf Gp Hw Hm H1) as (s' & E & Er & Em & Ew). rewrite E. rewrite (IH f' b c s y1 r1) by assumption. f_equal. subst r1.
    destruct (sync_passes parser_atn m (la1 (p_rest s'))) eqn:Es; [|discriminate]. rewrite sync_pass by assumption. rewrite asks_gen. destruct (adaptive parser_atn d c (types_of (p_rest s'))) as [i|] eqn:Ea; [|discriminate]. rewrite (asks_pred _ _ _ _ _ i) by exact Ea. f_equal. destruct i as [|[|i]]; [reflexivity| |reflexivity]. cbn [Nat.eqb].
    eapply (IH f' (LoopPred b m d) c (fetch (lookahead parser_atn d c (types_of (p_rest s'))) s')); [exact Hf|exact Gx|exact Ew|exact Em|exact H2].
Qed.
