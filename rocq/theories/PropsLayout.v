(** C70: layout moves source locations with their tokens. *)
From Coq Require Import String Sorted.
From Verif Require Import Base Regex RegexFacts LexRules Lexer Grammar Antlr Ast Builder Parser LexSpec LexFacts LexRuleFacts LexThms LexWs TokenSpec TokenFacts LitSpec ValueSpec SpellSpec
  GramSpec GramFacts SimFacts BuilderFacts BuilderRules ParseSpec ParseFacts EvFacts TreeFacts PropsLex MeanSpec MeanFacts Display DisplayFacts PropsDisplay LayoutSpec LayoutFacts
  PropsParse PropsRead PropsConfig.
Local Open Scope Z_scope.

(** Two queries whose tokens say the same, one by one: the results are the same tree, and where in the one result a node
    is located from the start of some token to the end of another, in the other result it is located from the start of
    the corresponding token to the end of the corresponding other. *)
Theorem C70_tokens : forall V P q q' n f g, env_ok V -> parse V P q = Ok n -> lex_errors q' = [] -> says_same (e_penv V) (tokens q) (tokens q') ->
  (forall i t t', nth_error (lx_tokens (lexemes q)) i = Some t -> nth_error (lx_tokens (lexemes q')) i = Some t' ->
    f (t_start t) = t_start t' /\ g (t_stop t + 1) = t_stop t' + 1) ->
  parse V P q' = Ok (relocate f g n).
Proof. intros V P q q' n f g HV Hp He Hs Hfg. eapply relocated; try eassumption. apply same_says. exact Hs. Qed.
(** There always are such [f] and [g]. *)
Theorem C70_maps : forall q q', exists f g : Z -> Z, forall i t t',
  nth_error (lx_tokens (lexemes q)) i = Some t -> nth_error (lx_tokens (lexemes q')) i = Some t' ->
  f (t_start t) = t_start t' /\ g (t_stop t + 1) = t_stop t' + 1.
Proof. exact token_maps. Qed.

Lemma inserted V P q w i n : env_ok V -> token_boundary q i -> Forall white_space w -> parse V P q = Ok n ->
  lex_errors q = [] -> texts_ok (e_penv V) (tokens q) ->
  parse V P (firstn i q ++ w ++ skipn i q) = Ok (relocate (moved_start (zlen (firstn i q)) (zlen w)) (moved_stop (zlen (firstn i q)) (zlen w)) n).
Proof.
  intros HV Hb Hw Hp He Ht. assert (Hw' : Forall is_ws w). { eapply Forall_impl; [|exact Hw]. intros c Hc. apply white_space_ranges in Hc. apply in_ws. exact Hc. }
  destruct (insert_ws_tokens q i w Hb Hw') as [Hs Hse]. apply relocated with (q := q); [exact HV|tauto|apply sig_says; [exact Ht|symmetry; exact Hs]| |exact Hp].
  destruct (boundary_split _ _ Hb) as (l1 & l2 & Hl & Hf). rewrite lexemes_lexf in Hl.
  assert (Hno : has_error (lexf 0 1 0 (firstn i q ++ skipn i q)) = false) by (rewrite firstn_skipn; apply has_error_lx_errors; exact He).
  rewrite <- (firstn_skipn i q) in Hl at 1. pose proof (lexf_insert_offs w Hw' l1 (firstn i q) (skipn i q) l2 0 1 0 Hl Hf Hno) as HO. rewrite firstn_skipn, Z.add_0_l in HO. unfold offs in HO. rewrite map_map in HO.
  intros j t t' Hj Hj'. change (lexf 0 1 0 ?x) with (lexemes x) in HO.
  assert (A : nth_error (map (fun t => (t_start t, t_stop t)) (lx_tokens (lexemes (firstn i q ++ w ++ skipn i q)))) j = Some (t_start t', t_stop t')) by (rewrite nth_error_map, Hj'; reflexivity).
  rewrite HO, nth_error_map, Hj in A. cbn [option_map] in A. unfold moved in A. cbn [fst snd] in A. injection A as A1 A2. split; [exact A1|lia].
Qed.
(** White space put in at a token boundary moves what comes behind by its length. *)
Theorem C70_insert : forall V P q w i n, env_ok V -> token_boundary q i -> Forall white_space w -> parse V P q = Ok n ->
  parse V P (firstn i q ++ w ++ skipn i q) = Ok (relocate (moved_start (Z.of_nat i) (Z.of_nat (List.length w))) (moved_stop (Z.of_nat i) (Z.of_nat (List.length w))) n).
Proof.
  intros V P q w i n HV Hb Hw Hp. destruct (parse_ok_inv V P q n HV Hp) as (m0 & [(He & _) Ht] & _).
  assert (Hi : (i <= List.length q)%nat). { destruct Hb as (l1 & l2 & Hl & <-). rewrite <- (tiles_concat _ _ _ (lexemes_tiles q)) at 1. rewrite Hl, map_app, concat_app, app_length. lia. }
  pose proof (inserted V P q w i n HV Hb Hw Hp He Ht) as H. unfold zlen in H. rewrite firstn_length_le in H by exact Hi. exact H.
Qed.
Lemma offs_upto s pos line col : Forall (fun x => snd x + 1 <= pos + zlen s) (offs (lexf pos line col s)).
Proof.
  revert pos line col. induction s as [s IH] using text_ind. intros pos line col. destruct (list_eq_dec N.eq_dec s []) as [->|Hs]; [constructor|].
  destruct (exec_longest s Hs) as [(ty & n & _ & Hn & Hl)|(_ & Hnm)].
  - set (w := firstn n s) in *. set (rest := skipn n s). assert (Hsw : s = w ++ rest) by (symmetry; apply firstn_skipn). rewrite Hsw in Hl |- *.
    rewrite (lexf_token ty w rest pos line col Hl), offs_mk. assert (Hr : (List.length rest < List.length s)%nat) by (rewrite Hsw; apply app_shorter; apply Hl).
    assert (Hz : zlen (w ++ rest) = zlen w + zlen rest) by (unfold zlen; rewrite app_length; lia). assert (Hz' : 0 <= zlen rest) by (unfold zlen; lia).
    apply Forall_app. split; [destruct (ttype_eqb ty Space); [constructor|]; constructor; [cbn [snd]; lia|constructor]|]. eapply Forall_impl; [|exact (IH rest Hr (pos + zlen w) _ _)]. intros y Hy. cbn in Hy. lia.
  - rewrite (lexf_err s pos line col Hs Hnm). set (bad := firstn (S (read_len s)) s). set (rest := skipn (S (read_len s)) s). assert (Hr : (List.length rest < List.length s)%nat) by (unfold rest; rewrite skipn_length; destruct s; [congruence|]; cbn [List.length]; lia).
    assert (Hz : zlen s = zlen bad + zlen rest) by (pose proof (f_equal (@List.length N) (firstn_skipn (S (read_len s)) s)) as Hz0; rewrite app_length in Hz0; fold bad rest in Hz0; unfold zlen; lia).
    unfold offs, lx_tokens. cbn [flat_map app]. eapply Forall_impl; [|exact (IH _ Hr (pos + zlen bad) _ _)]. intros y Hy. cbv beta in Hy. lia.
Qed.
Lemma relocate_id n : relocate (fun a => a) (fun b => b) n = n.
Proof.
  induction n as [p l ch IH] using qnode_ind'. cbn [relocate]. f_equal; [destruct l as [[a b]|]; reflexivity|]. induction IH as [|c ch Hc _ IHl]; [reflexivity|]. cbn [map]. rewrite Hc, IHl. reflexivity.
Qed.
(** White space in front moves everything. *)
Theorem C70_leading : forall V P q w n, env_ok V -> Forall white_space w -> parse V P q = Ok n ->
  parse V P (w ++ q) = Ok (relocate (fun a => a + Z.of_nat (List.length w)) (fun b => b + Z.of_nat (List.length w)) n).
Proof.
  intros V P q w n HV Hw Hp. destruct (parse_ok_inv V P q n HV Hp) as (m0 & [(He & _) Ht] & _).
  assert (Hw' : Forall is_ws w). { eapply Forall_impl; [|exact Hw]. intros c Hc. apply white_space_ranges in Hc. apply in_ws. exact Hc. }
  destruct (insert_ws_tokens q 0 w (proj1 (C05_boundaries q)) Hw') as [Hs Hse]. cbn [firstn skipn app] in Hs, Hse. apply relocated with (q := q); [exact HV|tauto|apply sig_says; [exact Ht|symmetry; exact Hs]| |exact Hp].
  pose proof (lexf_ws_offs w q 0 1 0 Hw' ltac:(apply has_error_lx_errors; exact He)) as HO. change (lexf 0 1 0 ?x) with (lexemes x) in HO. unfold offs in HO. rewrite map_map in HO. intros j t t' Hj Hj'.
  assert (A : nth_error (map (fun t => (t_start t, t_stop t)) (lx_tokens (lexemes (w ++ q)))) j = Some (t_start t', t_stop t')) by (rewrite nth_error_map, Hj'; reflexivity).
  rewrite HO, nth_error_map, Hj in A. cbn [option_map] in A. unfold shifted, zlen in A. cbn [fst snd] in A. injection A as A1 A2. split; [exact A1|lia].
Qed.
(** White space behind moves nothing. *)
Theorem C70_trailing : forall V P q w n, env_ok V -> Forall white_space w -> parse V P q = Ok n -> parse V P (q ++ w) = Ok n.
Proof.
  intros V P q w n HV Hw Hp. destruct (parse_ok_inv V P q n HV Hp) as (m0 & [(He & _) Ht] & _).
  assert (Hw' : Forall is_ws w). { eapply Forall_impl; [|exact Hw]. intros c Hc. apply white_space_ranges in Hc. apply in_ws. exact Hc. }
  pose proof (proj1 (proj2 (C05_boundaries q))) as Hb.
  destruct (insert_ws_tokens q (List.length q) w Hb Hw') as [Hs Hse]. rewrite firstn_all, skipn_all, app_nil_r in Hs, Hse.
  rewrite <- (relocate_id n). apply relocated with (q := q); [exact HV|tauto|apply sig_says; [exact Ht|symmetry; exact Hs]| |exact Hp].
  destruct (boundary_split _ _ Hb) as (l1 & l2 & Hl & Hf). rewrite lexemes_lexf in Hl. rewrite firstn_all in Hf.
  assert (Hno : has_error (lexf 0 1 0 (q ++ [])) = false) by (rewrite app_nil_r; apply has_error_lx_errors; exact He).
  rewrite <- (app_nil_r q) in Hl at 1. pose proof (lexf_insert_offs w Hw' l1 q [] l2 0 1 0 Hl Hf Hno) as HO. rewrite !app_nil_r, Z.add_0_l in HO. change (lexf 0 1 0 ?x) with (lexemes x) in HO. unfold offs in HO. rewrite map_map in HO.
  pose proof (offs_from q 0 1 0) as HF. pose proof (offs_upto q 0 1 0) as HU. change (lexf 0 1 0 q) with (lexemes q) in HF, HU. unfold offs in HF, HU. rewrite Forall_map, Forall_forall in HF, HU.
  intros j t t' Hj Hj'. pose proof (HF t (nth_error_In _ _ Hj)) as HF1. pose proof (HU t (nth_error_In _ _ Hj)) as HU1. cbn [fst snd] in HF1, HU1.
  assert (A : nth_error (map (fun t => (t_start t, t_stop t)) (lx_tokens (lexemes (q ++ w)))) j = Some (t_start t', t_stop t')) by (rewrite nth_error_map, Hj'; reflexivity).
  rewrite HO, nth_error_map, Hj in A. cbn [option_map] in A. unfold moved, moved_start, moved_stop in A. cbn [fst snd] in A. injection A as A1 A2.
  destruct (Z_lt_dec (t_start t) (zlen q)); [|lia]. destruct (Z_le_dec (t_stop t + 1) (zlen q)); [|lia]. split; [exact A1|lia].
Qed.

(** ** Witnesses *)
Example C70_witness : let q := u "[a='b']within s" in
  token_boundary q 7 /\ (exists n, parse some_env (with_locations default_parser) q = Ok n /\ q_loc n = Some (mkLoc 0 15) /\ map q_loc (q_children n) = [Some (mkLoc 0 7); Some (mkLoc 14 15)]) /\
  exists n', parse some_env (with_locations default_parser) (u "[a='b']   within s") = Ok n' /\ q_loc n' = Some (mkLoc 0 18) /\ map q_loc (q_children n') = [Some (mkLoc 0 7); Some (mkLoc 17 18)].
Proof. intros q. split; [exists (firstn 5 (lexemes q)), (skipn 5 (lexemes q)); vm_compute; split; reflexivity|]. unfold q; clear q. split; eexists; (split; [vm_compute; reflexivity|split; vm_compute; reflexivity]). Qed.
Print Assumptions C70_tokens. Print Assumptions C70_maps. Print Assumptions C70_insert. Print Assumptions C70_leading. Print Assumptions C70_trailing.
