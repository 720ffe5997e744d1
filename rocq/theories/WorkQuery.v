(** [parser.query()] and [QueryParser.parse]: the number of predictions and of accesses to the tables. *)
From Verif Require Import Base Regex LexRules Lexer Grammar Antlr Ast Builder Parser GenParser Atn AllStar ContextData AllStarFacts AllStarLoop AllStarNet GenFacts Recover RecoverPred RecoverNeed RecoverTerm RecoverInv RecoverSim
  PropsAllStar PropsDepth Cache CacheFacts Cached CachedFacts WorkSpec WorkNeed WorkCount WorkMain WorkParse.
Local Open Scope Z_scope.
Opaque parser_atn need good ns_len work sound expected next_has next_eps recovery_set adaptive_predict lookahead set_text predicted looked Cache.walk dstart sync_passes.
Notation rr := (rrun parser_atn).

Lemma rrun_work_all f x c s : good x = true -> sound x = true -> wfp s -> (bnd * S (phi s) <= f)%nat ->
  match rr f x c s with RNormal s' | RExn s' _ _ => wfp s' /\ (phi s' <= phi s)%nat /\ (asks (rrun_p f x c s) + wK * phi s' <= wK * phi s + wC)%nat | RFuel => False end.
Proof.
  intros Hg Hs Hw Hf. destruct (good_inv x Hg) as [Hc _]. destruct (chk_some x Hc) as (n & cn & ce & Hn & Hb). destruct (sound_inv x Hs) as [Hfit _]. destruct (fits_some x Hfit) as (w & p & Hwp & Hw1 & Hp1).
  assert (Hf' : (bnd * phi s + n <= f)%nat) by (clear -Hf Hb; lia). pose proof (rrun_work f x Hg Hs 60%nat all_ttypes c s n cn ce w p Hn Hwp Hw (all_in _) Hf') as HI. pose proof (rrun_goal f x Hg 60%nat all_ttypes c s n cn ce Hn Hw (all_in _) Hf') as HP.
  destruct (rr f x c s) as [s'|s' m e|]; cbn [cnt post] in *; [| |exact HP]; destruct HI as [I1 I2]; destruct HP as (H1 & HP & _); apply step_le in HP; (split; [exact H1|]); (split; [exact HP|]);
    (destruct (Nat.eq_dec (phi s') (phi s)) as [E|E]; [rewrite E in *; specialize (I2 (Nat.le_refl _)); clear -I2 Hw1; lia|specialize (I1 ltac:(clear -E HP; lia)); clear -I1 Hp1; lia]).
Qed.
Lemma phi_start ts : (phi (rstart ts) <= 64 * S (length ts))%nat.
Proof. unfold phi. pose proof (left_le (rstart ts)) as HL. rewrite ns_len_eq in *. cbn [rstart p_rest]. lia. Qed.
Lemma asks_match f c s n t : asks (rrun_p f (Match n t) c s) = O.
Proof. destruct f; reflexivity. Qed.
Lemma rrun_seq f a b c s : rr (S f) (Seq a b) c s = rthen (rr f a c s) (rr f b c). Proof. reflexivity. Qed.
Lemma rrun_p_seq f a b c s : rrun_p (S f) (Seq a b) c s = rthen_p (rrun_p f a c s) (rrun_p f b c). Proof. reflexivity. Qed.
Lemma method_query : method query = Seq (Call 46 main_query) (Seq within_stm (Match 51 EOF)). Proof. reflexivity. Qed.
Opaque rrun_p rrun.
Lemma asks_query f ts : to_eof (types_of ts) -> (bnd * S (phi (rstart ts)) + 10 <= f)%nat -> (asks (rrun_p f (method query) [] (rstart ts)) <= wK * phi (rstart ts) + 2 * wC)%nat.
Proof.
  intros H Hf. assert (Hw : wfp (rstart ts)) by exact H. destruct f as [|[|f]]; [clear -Hf; lia|clear -Hf; lia|]. set (s0 := rstart ts) in *. clearbody s0. rewrite method_query, rrun_p_seq, asks_then, rrun_eval.
  pose proof (rrun_work_all (S f) (Call 46 main_query) [] s0 (proj1 good_query) (proj1 sound_query) Hw ltac:(clear -Hf; lia)) as H1.
  destruct (rr (S f) (Call 46 main_query) [] s0) as [s1|s1 m e|]; [| |contradiction].
  2:{ destruct H1 as (_ & _ & H1). clear -H1. lia. }
  destruct H1 as (W1 & S1 & H1). rewrite rrun_p_seq, asks_then, rrun_eval.
  pose proof (rrun_work_all f within_stm [] s1 (proj2 good_query) (proj2 sound_query) W1 ltac:(clear -Hf S1; unfold bnd in *; lia)) as H2.
  destruct (rr f within_stm [] s1) as [s2|s2 m e|]; [| |contradiction].
  - destruct H2 as (_ & _ & H2). rewrite asks_match. clear -H1 H2. lia.
  - destruct H2 as (_ & _ & H2). clear -H1 H2. lia.
Qed.
Lemma asks_calls ts : to_eof (types_of ts) -> (asks (calls_p ts) <= 1216 * S (length ts) + 6)%nat.
Proof.
  intros H. unfold calls_p. rewrite asks_bind, asks_caught. cbn [asks]. rewrite Nat.add_0_r. pose proof (phi_start ts) as HP.
  pose proof (asks_query (2048 * S (length ts)) ts H ltac:(unfold bnd; clear -HP; lia)) as HA. unfold wK, wC in HA. clear -HP HA. lia.
Qed.
Lemma wide_calls ts : wide (length ts) (calls_p ts).
Proof.
  unfold calls_p. apply wide_bind; [|exact I]. apply wide_bind; [|exact I]. apply rrun_fine. apply Nat.le_refl.
Qed.
Transparent rrun_p rrun.
Lemma run_seq f a b c ts : runs (S f) (Seq a b) c ts = then_ (runs f a c ts) (runs f b c). Proof. reflexivity. Qed.
Lemma run_p_seq f a b c ts : run_p (S f) (Seq a b) c ts = gthen (run_p f a c ts) (run_p f b c). Proof. reflexivity. Qed.
Lemma asks_gmatch f c s n t : asks (run_p f (Match n t) c s) = O.
Proof. destruct f; reflexivity. Qed.
Opaque rrun_p rrun run run_p.
Lemma lockstep_ok f f' x c s y r : (f <= f')%nat -> good x = true -> wfp s -> p_mode s = false -> runs f x c (p_rest s) = GOk y r ->
  asks (run_p f x c (p_rest s)) = asks (rrun_p f' x c s) /\ exists s', rr f' x c s = RNormal s' /\ p_rest s' = r /\ p_mode s' = false /\ wfp s'.
Proof.
  intros Hf Hg Hw Hm H. split; [eapply lockstep; eassumption|]. pose proof (rrun_sim f' x c s Hg Hw Hm) as HS. rewrite (run_mono _ _ f f' x c (p_rest s) Hf) in HS by (rewrite H; discriminate). rewrite H in HS. cbn [RecoverSim.sim] in HS.
  destruct HS as (s' & H1 & H2 & [H3 _] & H4). exists s'. auto.
Qed.
Lemma asks_gen_query ts x r : to_eof (types_of ts) -> gen_query (adaptive parser_atn) (sync_passes parser_atn) ts = GOk x r -> (asks (gen_p ts) <= 1216 * S (length ts) + 6)%nat.
Proof.
  intros H HG. unfold gen_query in HG. unfold gen_p. rewrite asks_bind. cbn [asks]. rewrite Nat.add_0_r. destruct (runs (64 * S (length ts)) (method query) [] ts) as [y r0| |] eqn:E; try discriminate. clear HG.
  pose proof (phi_start ts) as HP. pose proof (asks_query (2048 * S (length ts)) ts H ltac:(unfold bnd; clear -HP; lia)) as HA.
  replace (asks (run_p (64 * S (length ts)) (method query) [] ts)) with (asks (rrun_p (2048 * S (length ts)) (method query) [] (rstart ts))); [unfold wK, wC in HA; clear -HP HA; lia|]. symmetry. clear HA HP.
  assert (HF : exists f f', (64 * S (length ts) = S (S f))%nat /\ (2048 * S (length ts) = S (S f'))%nat /\ (f <= f')%nat) by (exists (62 + 64 * length ts)%nat, (2046 + 2048 * length ts)%nat; lia).
  destruct HF as (f & f' & F1 & F2 & F3). rewrite F1, F2 in *. clear F1 F2. rewrite method_query in *. change ts with (p_rest (rstart ts)) in E |- * at 1. assert (Hw : wfp (rstart ts)) by exact H. assert (Hm : p_mode (rstart ts) = false) by reflexivity.
  set (s0 := rstart ts) in *. clearbody s0. rewrite run_seq in E. apply then_ok in E. destruct E as (y1 & r1 & y2 & H1 & H2).
  destruct (lockstep_ok (S f) (S f') _ [] s0 _ _ ltac:(clear -F3; lia) (proj1 good_query) Hw Hm H1) as (A1 & s1 & E1 & R1 & M1 & W1).
  rewrite rrun_p_seq, run_p_seq, asks_gthen, asks_then, run_eval, rrun_eval, H1, E1, A1. f_equal. subst r1.
  rewrite run_seq in H2. apply then_ok in H2. destruct H2 as (y3 & r3 & y4 & H3 & H4). destruct (lockstep_ok f f' within_stm [] s1 _ _ F3 (proj2 good_query) W1 M1 H3) as (A2 & s2 & E2 & R2 & M2 & W2).
  rewrite rrun_p_seq, run_p_seq, asks_gthen, asks_then, run_eval, rrun_eval, H3, E2, A2. f_equal. rewrite asks_match, asks_gmatch. reflexivity.
Qed.
Lemma wide_gen ts : wide (length ts) (gen_p ts).
Proof. unfold gen_p. apply wide_bind; [|exact I]. apply run_fine. apply Nat.le_refl. Qed.
Lemma asks_lex f : forall pos line col s, (asks (lex_p f pos line col s) <= f)%nat.
Proof.
  induction f as [|f IH]; intros pos line col s; [destruct s; cbn; lia|]. destruct s as [|c s]; [cbn; lia|]. cbn [lex_p asks]. apply le_n_S.
  destruct (match_of _) as [[[ty n]|] m]; cbv zeta; rewrite asks_bind; cbn [asks]; rewrite Nat.add_0_r; apply IH.
Qed.
Lemma wide_lex M f : forall pos line col s, (length s <= M)%nat -> wide M (lex_p f pos line col s).
Proof.
  induction f as [|f IH]; intros pos line col s H; [destruct s; exact I|]. destruct s as [|c s]; [exact I|]. cbn [lex_p wide]. rewrite map_length. split; [exact H|].
  destruct (match_of _) as [[[ty n]|] m]; cbv zeta; (apply wide_bind; [apply IH; rewrite skipn_length; lia|exact I]).
Qed.
