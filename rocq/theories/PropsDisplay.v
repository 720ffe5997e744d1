(** C69: displaying parse trees. *)
From Coq Require Import String Sorted.
From Verif Require Import Base Regex LexRules Lexer Grammar Antlr ContextData Ast Builder Parser LexSpec LexFacts LexRuleFacts LexThms LitSpec ValueSpec SpellSpec
  TokenSpec GramSpec GramFacts SimFacts BuilderFacts BuilderRules ParseSpec ParseFacts PropsTree PropsContexts PropsParse PropsRead MeanSpec MeanFacts PropsMean Display DisplaySpec DisplayFacts.
From Verif Require PropsRecover.
Local Open Scope Z_scope.

(** ** The displayed tree *)
(** Two displayed trees are equal exactly if the trees agree in everything but positions and, inside literals,
    the way tabs and line ends are written. *)
Theorem C69_exact : forall q q' t t', antlr_parse q = Ok t -> antlr_parse q' = Ok t' ->
  (to_string_tree t = to_string_tree t' <-> show t = show t').
Proof.
  intros q q' t t' H H'. apply parsed_good in H, H'. split; [|apply tree_det; assumption].
  intros E. refine (proj1 (tree_inj t H t' [] [] H' (or_introl eq_refl) (or_introl eq_refl) _)). rewrite !app_nil_r. exact E.
Qed.

Lemma show_leaves t : forall t', show t = show t' -> map (fun k => (t_type k, visible (t_text k))) (leaves t) = map (fun k => (t_type k, visible (t_text k))) (leaves t').
Proof.
  induction t as [k|r ch IH] using ptree_ind'; intros [k'|r' ch'] E; try discriminate E; cbn [show] in E.
  - injection E as E1 E2. cbn [leaves map]. rewrite E1, E2. reflexivity.
  - injection E as _ E. cbn [leaves]. revert ch' E. induction IH as [|c ch Hc _ IHl]; intros [|c' ch'] E; try discriminate E; [reflexivity|].
    cbn [map] in E. injection E as E1 E2. cbn [flat_map]. rewrite !map_app. rewrite (Hc c' E1), (IHl ch' E2). reflexivity.
Qed.
Lemma forall2_map_eq {A B} (f : A -> B) l : forall l', map f l = map f l' -> forall i a a', nth_error l i = Some a -> nth_error l' i = Some a' -> f a = f a'.
Proof.
  intros l' E i a a' Ha Ha'. apply (map_nth_error f) in Ha, Ha'. rewrite E, Ha' in Ha. congruence.
Qed.
(** Texts of tokens other than literals are displayed as they are. *)
Lemma display_text k k' : leaf_ok k -> leaf_ok k' -> t_type k <> REGEXP -> t_type k = t_type k' -> visible (t_text k) = visible (t_text k') -> t_text k = t_text k'.
Proof.
  intros H H' Hn Ht E. rewrite !visible_escape in E.
  assert (P : forall z, leaf_ok z -> t_type z <> REGEXP -> escape_ws (t_text z) = t_text z).
  { intros z Hz Hzn. destruct (leaf_ok_shape z Hz) as [S|[S|[S|(S & _)]]]; [|rewrite S; reflexivity|rewrite S; reflexivity|exact S].
    exfalso. destruct Hz as [[_ Hz]|[_ Hz]]; [apply literal_type in S; apply Hzn; eapply first_rule_det; eassumption|]. rewrite Hz in S. apply literal_first in S. destruct S as (c & w & Ew & [-> | ->]); discriminate Ew. }
  rewrite (P k H Hn), (P k' H') in E; [exact E|congruence].
Qed.

Lemma display_says E C q q' : texts_ok E (tokens q) -> map (fun k => (t_type k, visible (t_text k))) (tokens q) = map (fun k => (t_type k, visible (t_text k))) (tokens q') -> says_if (fun w w' => decodable w' /\ regexp_value E C w = regexp_value E C w') E (tokens q) (tokens q').
Proof.
  intros (T1 & T2 & T3 & _) M. split.
  { rewrite <- (map_map (fun k => (t_type k, visible (t_text k))) fst), M, map_map. reflexivity. }
  intros i a a' Ha Ha'. pose proof (forall2_map_eq _ _ _ M i a a' Ha Ha') as Ea. injection Ea as Ea1 Ea2.
  assert (Ia : leaf_ok a) by (eapply tokens_leaf_ok; eapply nth_error_In; exact Ha). assert (Ia' : leaf_ok a') by (eapply tokens_leaf_ok; eapply nth_error_In; exact Ha').
  assert (Et : t_type a <> REGEXP -> t_text a = t_text a') by (intros Hn; apply display_text; assumption).
  split; [|split].
  - intros Hr. destruct (T1 a (nth_error_In _ _ Ha) Hr) as (v & Hv). rewrite !visible_escape in Ea2. assert (Hv' : literal_means (t_text a') v); [|split; [exists v; exact Hv'|eapply value_like; eassumption]]. apply (same_display_means _ _ v Ea2 Hv).
    destruct Ia' as [[_ Hz]|[Hz _]]; [|congruence]. rewrite <- Ea1, Hr in Hz. apply literal_type. exact Hz.
  - intros Hi. rewrite <- Et by congruence. split; [reflexivity|]. apply T3; [eapply nth_error_In; exact Ha|exact Hi].
  - intros b b' Hb Hb'. pose proof (forall2_map_eq _ _ _ M (S i) b b' Hb Hb') as Eb. injection Eb as Eb1 Eb2.
    assert (Ib : leaf_ok b) by (eapply tokens_leaf_ok; eapply nth_error_In; exact Hb). assert (Ib' : leaf_ok b') by (eapply tokens_leaf_ok; eapply nth_error_In; exact Hb').
    assert (Etb : t_type b <> REGEXP -> t_text b = t_text b') by (intros Hn; apply display_text; assumption).
    split; [|split].
    + intros _. exact Et.
    + intros _ Hf. rewrite <- Etb by congruence. destruct Ib as [[_ Hz]|[Hz _]]; [|congruence]. rewrite Hf in Hz. pose proof (first_rule_text _ _ Hz) as [_ Hc].
      destruct (flags_denote_exists _ Hc) as (S & HS). exists S. auto.
    + intros _ Hf. rewrite <- Etb by congruence. destruct Ib as [[_ Hz]|[Hz _]]; [|congruence]. rewrite Hf in Hz. pose proof (first_rule_text _ _ Hz) as Hc. cbn [text_ok] in Hc.
      destruct (scope_spec _ Hc) as (sc & Hs & _). exists sc. auto.
Qed.
(** Equal displays, equal results: whatever the settings of the parser and the environment. *)
Theorem C69_result : forall V P q q' t t' n, env_ok V -> antlr_parse q = Ok t -> antlr_parse q' = Ok t' -> to_string_tree t = to_string_tree t' ->
  parse V P q = Ok n -> lex_errors q' = [] -> exists n', parse V P q' = Ok n' /\ erase n' = erase n.
Proof.
  intros V P q q' t t' n HV H H' E Hp He. apply (C69_exact q q' t t' H H') in E. apply show_leaves in E. rewrite (proj2 (antlr_tree _ _ H)), (proj2 (antlr_tree _ _ H')) in E.
  eapply same_meaning_if; [exact HV|exact He| |exact Hp]. apply display_says; [|exact E]. destruct (parse_ok_inv V P q n HV Hp) as (m0 & [_ Ht] & _). exact Ht.
Qed.

(** ** Source intervals *)
Lemma subtree_leaves c t : subtree c t -> exists pre post, leaves t = pre ++ leaves c ++ post.
Proof.
  induction 1 as [|r ch d Hd _ (pre & post & IH)]; [exists [], []; rewrite app_nil_r; reflexivity|]. apply in_split in Hd. destruct Hd as (l1 & l2 & ->).
  cbn [leaves]. rewrite flat_map_app. cbn [flat_map]. rewrite IH. exists (flat_map leaves l1 ++ pre), (post ++ flat_map leaves l2). rewrite <- !app_assoc. reflexivity.
Qed.
Lemma starts_rising l : forall pos s, tiles pos s l -> StronglySorted (fun a b => t_start a < t_start b) (lx_tokens l) /\ Forall (fun t => pos <= t_start t < pos + zlen s) (lx_tokens l).
Proof.
  induction l as [|x l IH]; intros pos s H; [split; constructor|]. cbn [tiles] in H. destruct H as (Hs & Hn & r & -> & Hr). destruct (IH _ _ Hr) as [H1 H2]. assert (Hz : 0 < zlen (lx_text x)) by (unfold zlen; destruct (lx_text x); [congruence|cbn; lia]). assert (Hr0 : 0 <= zlen r) by (unfold zlen; lia).
  assert (Ez : zlen (lx_text x ++ r) = zlen (lx_text x) + zlen r) by (unfold zlen; rewrite app_length; lia). rewrite Ez.
  assert (HF : Forall (fun t => pos < t_start t < pos + (zlen (lx_text x) + zlen r)) (lx_tokens l)) by (eapply Forall_impl; [|exact H2]; intros t Ht; cbn in Ht; lia).
  assert (HF' : Forall (fun t => pos <= t_start t < pos + (zlen (lx_text x) + zlen r)) (lx_tokens l)) by (eapply Forall_impl; [|exact HF]; intros t Ht; cbn in Ht; lia).
  unfold lx_tokens. cbn [flat_map]. fold (lx_tokens l). destruct x as [t|t|]; cbn [app]; [|auto|auto]. cbn [lx_start] in Hs. split; constructor; [exact H1| |lia|exact HF']. eapply Forall_impl; [|exact HF]. intros b Hb. cbn in Hb. lia.
Qed.
Lemma tokens_rising q : StronglySorted (fun a b => t_start a < t_start b) (tokens q).
Proof.
  destruct (starts_rising (lexemes q) 0 q (lex_loop_tiles _ _ _ _ _ (Nat.le_refl _))) as [H1 H2]. apply PropsRecover.sorted_snoc; [exact H1|]. eapply Forall_impl; [|exact H2]. intros t Ht. cbn in *. lia.
Qed.
Lemma index_at l : StronglySorted (fun a b => t_start a < t_start b) l -> forall n k i, nth_error l n = Some k -> index_from i k l = Some (i + Z.of_nat n).
Proof.
  induction 1 as [|x l _ IH Hx]; intros n k i Hn; [destruct n; discriminate|]. destruct n as [|n]; cbn [nth_error] in Hn; cbn [index_from].
  - injection Hn as ->. rewrite Z.eqb_refl. f_equal. lia.
  - rewrite Forall_forall in Hx. specialize (Hx k (nth_error_In _ _ Hn)). rewrite (proj2 (Z.eqb_neq _ _)) by lia. rewrite (IH n k (i + 1) Hn). f_equal. lia.
Qed.


(** The tokens of a context other than the end of the query. *)
Lemma context_tokens r ch : derives (body r) ch -> exists own eof, flat_map leaves ch = own ++ eof /\ own <> [] /\ Forall (fun k => t_type k <> EOF) own /\
  if rule_eq_dec r query then exists e, eof = [e] /\ t_type e = EOF else eof = [].
Proof.
  intros Hd. destruct (body_proper r ch Hd) as (k & Hk & Ht). destruct (rule_eq_dec r query) as [->|Hr].
  - cbn [body] in Hd. inversion Hd as [| |? ? xa x1 Ha Hb| | | | | | |]; subst; clear Hd. inversion Hb as [| |? ? xo xe Ho He| | | | | | |]; subst; clear Hb. inversion He as [? e Hin| | | | | | | | |]; subst; clear He.
    destruct Hin as [Hin|[]]. exists (flat_map leaves (xa ++ xo)), [e]. split; [rewrite app_assoc, flat_map_app; reflexivity|].
    assert (N : Forall (fun z => t_type z <> EOF) (flat_map leaves (xa ++ xo))). { rewrite flat_map_app. apply Forall_app. split; [eapply derives_no_eof; [exact Ha|reflexivity]|eapply derives_no_eof; [exact Ho|reflexivity]]. }
    split; [|split; [exact N|exists e; auto]]. intros E. rewrite app_assoc, flat_map_app, E in Hk. destruct Hk as [<-|[]]. congruence.
  - exists (flat_map leaves ch), []. rewrite app_nil_r. split; [reflexivity|]. split; [intros E; rewrite E in Hk; destruct Hk|]. split; [|reflexivity]. apply (rule_no_eof r ch Hr Hd).
Qed.
(** The source interval of a context gives the first and the last of its tokens, the end of the query not counted: the
    tokens in between are the context's, and the context's text is made of theirs (the end of the query shows in the
    text of the whole query only). *)
Theorem C69_interval : forall q t r ch, antlr_parse q = Ok t -> subtree (Node r ch) t ->
  exists i j, source_interval q (Node r ch) = Some (i, j) /\ 0 <= i <= j /\ j < Z.of_nat (List.length (tokens q)) - 1 /\
    filter (fun k => if ttype_eq_dec (t_type k) EOF then false else true) (leaves (Node r ch)) = between i j (tokens q) /\
    get_text (Node r ch) = concat (map t_text (between i j (tokens q))) ++ (if rule_eq_dec r query then u "<EOF>" else []).
Proof.
  intros q t r ch H Hs. destruct (antlr_tree q t H) as [Hp Hl]. assert (Hd : derives (body r) ch) by (eapply derives_subtree; [exact Hp|left; reflexivity|exact Hs]).
  destruct (subtree_leaves _ _ Hs) as (pre & post & E). rewrite Hl in E. cbn [leaves] in E. destruct (context_tokens r ch Hd) as (own & eof & Eo & Hne & Hno & Hq). rewrite Eo in E.
  assert (Ho : (0 < List.length own)%nat) by (destruct own; [congruence|cbn; lia]).
  assert (Hfe : filter (fun k => negb (ttype_eqb (t_type k) EOF)) own = own). { clear - Hno. induction Hno as [|x l Hx _ IH]; [reflexivity|]. cbn [filter]. replace (ttype_eqb (t_type x) EOF) with false by (unfold ttype_eqb; destruct (ttype_eq_dec (t_type x) EOF); [contradiction|reflexivity]). cbn [negb]. rewrite IH. reflexivity. }
  assert (Hff : filter (fun k => negb (ttype_eqb (t_type k) EOF)) (own ++ eof) = own).
  { rewrite filter_app, Hfe. destruct (rule_eq_dec r query); [destruct Hq as (e0 & -> & He); cbn [filter]; rewrite He|subst eof]; cbn; apply app_nil_r. }
  set (i := Z.of_nat (List.length pre)). set (j := Z.of_nat (List.length pre + List.length own - 1)).
  assert (Hi : forall n k, nth_error own n = Some k -> token_index q k = Some (i + Z.of_nat n)).
  { intros n k Hn. unfold token_index. rewrite (index_at _ (tokens_rising q) (List.length pre + n) k 0); [f_equal; unfold i; lia|]. rewrite E, nth_error_app2 by lia. replace (List.length pre + n - List.length pre)%nat with n by lia.
    rewrite <- app_assoc, nth_error_app1; [exact Hn|]. apply nth_error_Some. congruence. }
  assert (Hb : between i j (tokens q) = own).
  { unfold between. rewrite E. unfold i, j. rewrite Nat2Z.id, skipn_app, skipn_all, Nat.sub_diag. cbn [skipn app]. rewrite <- app_assoc, firstn_app.
    replace (Z.to_nat (Z.of_nat (List.length pre + List.length own - 1) - Z.of_nat (List.length pre) + 1)) with (List.length own) by lia. rewrite firstn_all, Nat.sub_diag. cbn [firstn]. apply app_nil_r. }
  exists i, j. split; [|split; [|split; [|split]]].
  - unfold source_interval, ctx_start, ctx_stop. cbn [leaves]. rewrite Eo, Hff. destruct (nth_error own 0) as [a|] eqn:Ea; [|apply nth_error_None in Ea; lia]. destruct (nth_error own (List.length own - 1)) as [b|] eqn:Eb; [|apply nth_error_None in Eb; lia].
    assert (E1 : hd_error (own ++ eof) = Some a) by (destruct own as [|x l]; [congruence|cbn in *; exact Ea]).
    assert (E2 : hd_error (rev own) = Some b). { clear - Eb Hne. destruct own as [|x l _] using rev_ind; [congruence|]. rewrite rev_app_distr. cbn [rev app hd_error]. rewrite app_length in Eb. cbn [List.length] in Eb. rewrite nth_error_app2 in Eb by lia. replace (List.length l + 1 - 1 - List.length l)%nat with 0%nat in Eb by lia. exact Eb. }
    rewrite E1, E2, (Hi 0%nat a Ea), (Hi _ b Eb). f_equal. f_equal; unfold i, j; lia.
  - unfold i, j. lia.
  - assert (L : (List.length pre + List.length own < List.length (tokens q))%nat); [|unfold j; lia].
    assert (Hle : (List.length (tokens q) = List.length pre + List.length own + List.length eof + List.length post)%nat) by (rewrite E, !app_length; lia).
    destruct (rule_eq_dec r query); [destruct Hq as (e0 & -> & _); cbn [List.length] in Hle; lia|]. subst eof. destruct post as [|p post]; [|cbn [List.length] in Hle; lia]. exfalso.
    rewrite !app_nil_r in E. unfold tokens in E. destruct own as [|x l _] using rev_ind; [congruence|]. rewrite app_assoc in E. apply app_inj_tail in E. destruct E as [_ E]. apply Forall_app in Hno. destruct Hno as [_ Hno]. apply Forall_inv in Hno. rewrite <- E in Hno. apply Hno. reflexivity.
  - rewrite Hb. cbn [leaves]. rewrite Eo. etransitivity; [|exact Hff]. apply filter_ext. intros k. unfold ttype_eqb. destruct (ttype_eq_dec (t_type k) EOF); reflexivity.
  - unfold get_text. rewrite Hb. cbn [leaves]. rewrite Eo, flat_map_app. f_equal.
    + apply flat_map_concat_map.
    + destruct (rule_eq_dec r query); [|subst eof; reflexivity]. destruct Hq as (e0 & -> & He). cbn [flat_map]. rewrite app_nil_r.
      assert (Hin : In e0 (tokens q)) by (rewrite E; apply in_or_app; right; apply in_or_app; left; apply in_or_app; right; left; reflexivity).
      destruct (tokens_leaf_ok q e0 Hin) as [[_ Hz]|[_ Hz]]; [|exact Hz]. exfalso. rewrite He in Hz. apply first_rule_text in Hz. exact Hz.
Qed.

(** ** Witnesses *)
(** Layout does not show; line ends inside literals are shown as escapes. *)
Definition with_line_end := u "[word = '" ++ [10%N] ++ u "']".
Example C69_shown : match antlr_parse (u "[a='(b c'/i]{2} within s") with Ok t =>
  to_string_tree t = u "(query (main_query (query_simple (query_segment [ (expression (expression_basic (attribute (identifier a)) = (regexp (regexp_pattern '(b c') / (regexp_flag i)))) ]) (quantifier { 2 }))) within (within_part (within_part_simple s)) <EOF>)" | Raise _ => False end.
Proof. vm_compute. reflexivity. Qed.
Example C69_display : match antlr_parse with_line_end, antlr_parse (u "[  word='\n']") with
  | Ok t, Ok t' => to_string_tree t = to_string_tree t' /\ t <> t' /\ source_interval with_line_end t = Some (0, 4)
  | _, _ => False end.
Proof. vm_compute. split; [reflexivity|split; [discriminate|reflexivity]]. Qed.
Example C69_results : exists n n', parse some_env default_parser with_line_end = Ok n /\ parse some_env default_parser (u "[  word='\n']") = Ok n' /\ erase n = erase n'.
Proof.
  assert (A : exists n, parse some_env default_parser with_line_end = Ok n) by (vm_compute; eexists; reflexivity). destruct A as (n & Hn).
  assert (D := C69_display). destruct (antlr_parse with_line_end) as [t|] eqn:Ht; [|destruct D]. destruct (antlr_parse (u "[  word='\n']")) as [t'|] eqn:Ht'; [|destruct D]. destruct D as (D & _).
  destruct (C69_result some_env default_parser _ _ t t' n some_env_ok Ht Ht' D Hn) as (n' & Hn' & He); [vm_compute; reflexivity|]. exists n, n'. auto.
Qed.
Print Assumptions C69_exact.
Print Assumptions C69_result.
Print Assumptions C69_interval.
