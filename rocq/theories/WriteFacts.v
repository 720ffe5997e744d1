(** Writing a documented tree and reading it back. *)
From Coq Require Import String DecimalString DecimalFacts DecimalZ DecimalPos DecimalN Decimal Ascii.
From Verif Require Import Base Regex RegexFacts LexRules Lexer LexSpec LexFacts LitSpec LexRuleFacts LexThms LexWs Ast Builder ValueSpec ValueFacts SpellSpec
  TreeSpec TreeFacts ParseFacts StrFacts ReadSpec ReadStrat WriteSpec.
From Coq Require Import ZifyBool ZifyN.
Local Open Scope Z_scope.

(** ** The types of words *)
Definition is_word (w : pystr) : Prop := exists ty, first_rule w ty /\ ty <> Space.
Definition typed (t : token) : Prop := first_rule (t_text t) (t_type t).
Lemma word_type w ty : first_type lex_rules w = Some ty -> first_rule w ty.
Proof. apply first_type_some. Qed.
Lemma typed_is t w ty : typed t -> t_text t = w -> first_type lex_rules w = Some ty -> is_tok ty t.
Proof. intros Ht <- H. apply word_type in H. unfold typed in Ht. eapply first_rule_det; eassumption. Qed.
Lemma fixed_word w ty : first_type lex_rules w = Some ty -> ty <> Space -> is_word w.
Proof. intros H Hs. exists ty. split; [apply word_type; exact H|exact Hs]. Qed.

Lemma rule_first ty c r : first_rule (c :: r) ty -> (is_letter c \/ (48 <= c <= 57)%N) ->
  In ty (if (c <=? 57)%N then [INTEGER] else [WITHIN; SIMPLE_WITHIN_SCOPE; REGEXP_FLAGS; IDENTIFIER]).
Proof.
  intros Hf Hc. destruct (first_rule_in _ _ Hf) as (rx & Hin & Hl). unfold is_letter in Hc.
  assert (X : forall x, lang (ch x) (c :: r) -> c = x) by (intros x H; apply lang_ch in H; congruence).
  assert (Hlet : forall l, in_ranges l c = true -> Forall (fun p => snd p < 48 \/ 57 < fst p)%N l -> (57 < c)%N \/ (c < 48)%N).
  { intros l H Hp. unfold in_ranges in H. apply existsb_exists in H. destruct H as (p & Hi & H). rewrite Forall_forall in Hp. specialize (Hp p Hi). lia. }
  assert (Hlit : is_literal (c :: r) -> False).
  { intros H. destruct (literal_first _ H) as (q & w' & He & Hq). injection He as -> _. lia. }
  unfold lex_rules in Hin. cbn [In] in Hin.
  repeat (destruct Hin as [Hin|Hin]; [injection Hin as <- <-; try (apply X in Hl; lia)|]); [..|destruct Hin].
  - (* != *) apply (lang_word (u "!=")) in Hl. injection Hl as -> _. lia.
  - (* within *) apply (lang_word (u "within")) in Hl. injection Hl as -> _. cbn. auto.
  - (* scope *) assert (H : (57 <? c)%N = true). { apply (lang_bars (map word scope_words)) in Hl. destruct Hl as (rr & Hr & Hl). apply in_map_iff in Hr. destruct Hr as (s & <- & Hs). apply lang_word in Hl. subst s.
      unfold scope_words in Hs. cbn [map In] in Hs. repeat (destruct Hs as [Hs|Hs]; [injection Hs as <- _; reflexivity|]). destruct Hs. }
    replace (c <=? 57)%N with false by lia. cbn. auto.
  - (* flags *) apply lang_plus_set in Hl. destruct Hl as [_ Hl]. inversion Hl as [|? ? H1 _]; subst. apply Hlet in H1; [|repeat constructor; cbn; lia]. replace (c <=? 57)%N with false by lia. cbn. auto.
  - (* identifier *) apply lang_cat in Hl. destruct Hl as (x & y & He & H1 & _). apply lang_set in H1. destruct H1 as (z & -> & H1). injection He as <- _. apply Hlet in H1; [|repeat constructor; cbn; lia]. replace (c <=? 57)%N with false by lia. cbn. auto.
  - (* integer *) apply lang_plus_set in Hl. destruct Hl as [_ Hl]. inversion Hl as [|? ? H1 _]; subst. unfold in_ranges in H1. cbn in H1. replace (c <=? 57)%N with true by lia. cbn. auto.
  - exfalso. apply Hlit. apply lang_QUOTED. exact Hl.
  - exfalso. apply Hlit. apply lang_QUOTED. exact Hl.
  - (* space *) apply lang_set in Hl. destruct Hl as (x & He & H). injection He as -> _. exfalso. apply in_ws in H. cbn in H. repeat (destruct H as [H|H]; [lia|]). destruct H.
Qed.
Lemma name_matched w : is_name w -> matched w.
Proof.
  intros (c & r & -> & Hc & Hr). exists IDENTIFIER. eexists. split; [do 20 right; left; reflexivity|].
  change (c :: r) with ([c] ++ r). apply lang_cat. exists [c], r. split; [reflexivity|]. split.
  - apply lang_set. exists c. split; [reflexivity|]. unfold is_letter in Hc. unfold in_ranges. cbn. lia.
  - unfold opt. apply lang_bar. destruct Hr as [->|(m & d & -> & Hd & Hm)]; [right; apply lang_eps; reflexivity|left].
    apply lang_cat. exists m, [d]. split; [reflexivity|]. split.
    + apply lang_rep_set. eapply Forall_impl; [|exact Hm]. intros x Hx. unfold is_alnum, is_letter in Hx. unfold in_ranges. cbn. lia.
    + apply lang_set. exists d. split; [reflexivity|]. unfold is_alnum, is_letter in Hd. unfold in_ranges. cbn. lia.
Qed.
Lemma name_rule w ty : is_name w -> first_rule w ty -> In ty [IDENTIFIER; WITHIN; SIMPLE_WITHIN_SCOPE; REGEXP_FLAGS].
Proof.
  intros (c & r & -> & Hc & Hr) Hf. assert (H := rule_first _ _ _ Hf (or_introl Hc)). unfold is_letter in Hc. replace (c <=? 57)%N with false in H by lia. cbn in *. intuition auto.
Qed.
Lemma name_word w : is_name w -> is_word w.
Proof. intros H. destruct (matched_first _ (name_matched _ H)) as (ty & Hf). exists ty. split; [exact Hf|]. pose proof (name_rule _ _ H Hf) as Hin. intros ->. cbn in Hin. intuition discriminate. Qed.
Lemma name_typed t : typed t -> is_name (t_text t) -> name_tok t.
Proof. intros Ht Hn. unfold name_tok. eapply name_rule; eassumption. Qed.
(** ** Numbers *)
Lemma uint_value d : forall a, fold_left (fun a c => a * 10 + digit_val c) (u (NilEmpty.string_of_uint d)) (Z.pos a) = Z.pos (Pos.of_uint_acc d a).
Proof. induction d; intros a; cbn [NilEmpty.string_of_uint u fold_left Pos.of_uint_acc]; [reflexivity|..]; rewrite <- IHd; f_equal;
    match goal with |- _ + ?d = _ => let v := eval vm_compute in d in change d with v end; rewrite ?Pos2Z.inj_add, ?Pos2Z.inj_mul; lia. Qed.
Lemma uint_value0 d : dec_value (u (NilEmpty.string_of_uint d)) = Z.of_uint d.
Proof.
  unfold dec_value, Z.of_uint. induction d; cbn [NilEmpty.string_of_uint u fold_left Pos.of_uint]; [reflexivity|exact IHd|..];
    cbn [Z.of_N]; rewrite <- uint_value; f_equal.
Qed.
Definition z_uint (z : Z) : uint := N.to_uint (Z.to_N z).
Lemma dec_uint z : 0 <= z -> dec z = u (NilEmpty.string_of_uint (z_uint z)) /\ z_uint z <> Nil.
Proof.
  intros Hz. destruct z as [|p|p]; [split; [reflexivity|discriminate]| |lia]. pose proof (DecimalPos.Unsigned.to_uint_nonnil p) as Hn.
  split; [|exact Hn]. unfold dec. change (Z.to_int (Z.pos p)) with (Decimal.Pos (Pos.to_uint p)). change (z_uint (Z.pos p)) with (Pos.to_uint p) in *.
  cbn [NilZero.string_of_int]. destruct (Pos.to_uint p); [congruence|reflexivity..].
Qed.
Lemma dec_value_dec z : 0 <= z -> dec_value (dec z) = z.
Proof. intros Hz. destruct (dec_uint z Hz) as [-> _]. rewrite uint_value0. destruct z; [reflexivity| |lia]. unfold Z.of_uint, z_uint. cbn [Z.to_N N.to_uint]. rewrite DecimalPos.Unsigned.of_to. reflexivity. Qed.
Lemma uint_digits d : Forall is_digit_char (u (NilEmpty.string_of_uint d)).
Proof. induction d; cbn; constructor; try assumption; unfold is_digit_char; cbn; lia. Qed.
Lemma dec_digits z : 0 <= z -> dec z <> [] /\ Forall is_digit_char (dec z).
Proof. intros Hz. destruct (dec_uint z Hz) as [-> Hn]. split; [|apply uint_digits]. destruct (z_uint z); [congruence|discriminate..]. Qed.
Lemma digits_rule w ty : w <> [] -> Forall is_digit_char w -> first_rule w ty -> ty = INTEGER.
Proof.
  intros Hn Hd Hf. destruct w as [|c r]; [congruence|]. inversion Hd as [|? ? Hc _]; subst. unfold is_digit_char in Hc.
  pose proof (rule_first _ _ _ Hf (or_intror Hc)) as H. replace (c <=? 57)%N with true in H by lia. destruct H as [H|[]]. auto.
Qed.
Lemma digits_matched w : w <> [] -> Forall is_digit_char w -> first_rule w INTEGER.
Proof.
  intros Hn Hd. assert (Hm : matched w). { exists INTEGER. eexists. split; [do 21 right; left; reflexivity|]. apply lang_plus_set. split; [exact Hn|]. eapply Forall_impl; [|exact Hd]. intros c Hc. unfold is_digit_char in Hc. unfold in_ranges. cbn. lia. }
  destruct (matched_first _ Hm) as (ty & Hf). rewrite (digits_rule _ _ Hn Hd Hf) in Hf. exact Hf.
Qed.
Lemma dec_type z : 0 <= z -> first_rule (dec z) INTEGER.
Proof. intros Hz. destruct (dec_digits z Hz). apply digits_matched; assumption. Qed.
(** The decimal numeral is the shortest text with its value. *)
Lemma digits_uint w : Forall is_digit_char w -> exists d, w = u (NilEmpty.string_of_uint d) /\ nb_digits d = List.length w.
Proof.
  induction 1 as [|c w Hc _ (d & -> & Hl)]; [exists Nil; split; reflexivity|].
  assert (H : exists f : uint -> uint, u (NilEmpty.string_of_uint (f d)) = c :: u (NilEmpty.string_of_uint d) /\ nb_digits (f d) = S (nb_digits d)).
  { unfold is_digit_char in Hc. assert (Hk : (c = 48 \/ c = 49 \/ c = 50 \/ c = 51 \/ c = 52 \/ c = 53 \/ c = 54 \/ c = 55 \/ c = 56 \/ c = 57)%N) by lia.
    destruct Hk as [->|[->|[->|[->|[->|[->|[->|[->|[->| ->]]]]]]]]]; [exists D0|exists D1|exists D2|exists D3|exists D4|exists D5|exists D6|exists D7|exists D8|exists D9]; split; reflexivity. }
  destruct H as (f & H1 & H2). exists (f d). rewrite H1, H2. cbn [List.length]. rewrite Hl. auto.
Qed.
Lemma u_length s : List.length (u s) = String.length s.
Proof. induction s; cbn; auto. Qed.
Lemma uint_length d : List.length (u (NilEmpty.string_of_uint d)) = nb_digits d.
Proof. induction d; cbn; auto. Qed.
Lemma dec_shortest w : w <> [] -> Forall is_digit_char w -> 0 <= dec_value w /\ (List.length (dec (dec_value w)) <= List.length w)%nat.
Proof.
  intros Hn Hd. destruct (digits_uint w Hd) as (d & -> & Hl). rewrite uint_value0. split; [unfold Z.of_uint; lia|].
  assert (Hz : 0 <= Z.of_uint d) by (unfold Z.of_uint; lia). destruct (dec_uint _ Hz) as [-> _]. rewrite uint_length.
  assert (Hu : z_uint (Z.of_uint d) = unorm d).
  { unfold Z.of_uint, z_uint. rewrite N2Z.id. exact (DecimalN.Unsigned.to_of d). }
  rewrite Hu, uint_length. apply nb_digits_unorm. intros ->. apply Hn. reflexivity.
Qed.

(** ** Lexing words joined by spaces *)
Lemma word_longest w ty s : first_rule w ty -> s = [] \/ (exists r, s = 32%N :: r) -> longest_match (w ++ s) ty w.
Proof.
  intros Hf Hs. assert (Hm := first_rule_matched _ _ Hf). assert (Hn := matched_nonempty _ Hm).
  split; [exact Hn|]. split; [eexists; reflexivity|]. split; [exact Hf|]. intros w' rest' He Hlt Hm'.
  destruct Hs as [->|(r & ->)].
  - rewrite app_nil_r in He. subst w. rewrite app_length in Hlt. lia.
  - assert (Hp := prefix_firstn _ _ _ He). rewrite firstn_app, firstn_all2 in Hp by lia.
    destruct (List.length w' - List.length w)%nat as [|k] eqn:Hk; [lia|]. cbn [firstn] in Hp. rewrite Hp in Hm'.
    apply (no_match_across w [] 32%N (firstn k r) Hn Hm); [|exact Hm']. apply in_ws. reflexivity.
Qed.
Lemma lex_words ws : Forall is_word ws -> forall pos line col, exists sigs, lx_sigs (lexf pos line col (join (u " ") ws)) = sigs /\
  has_error (lexf pos line col (join (u " ") ws)) = false /\ map snd sigs = ws /\ Forall (fun s => first_rule (snd s) (fst s)) sigs.
Proof.
  induction 1 as [|w ws (ty & Hf & Hty) Hws IH]; intros pos line col.
  - exists []. repeat split; auto.
  - assert (Hs : (if ttype_eqb ty Space then [] else [(ty, w)]) = [(ty, w)]) by (unfold ttype_eqb; destruct (ttype_eq_dec ty Space); congruence).
    destruct ws as [|w2 ws].
    + exists [(ty, w)]. cbn [join]. pose proof (lexf_token ty w [] pos line col (word_longest _ _ _ Hf (or_introl eq_refl))) as Hl. rewrite app_nil_r in Hl.
      rewrite Hl, lx_sigs_cons_mk, has_error_mk, Hs. cbv zeta. rewrite lexf_nil. repeat split; auto.
    + change (join (u " ") (w :: w2 :: ws)) with (w ++ u " " ++ join (u " ") (w2 :: ws)).
      rewrite (lexf_token ty w _ pos line col) by (apply word_longest; [exact Hf|right; eexists; reflexivity]).
      rewrite lx_sigs_cons_mk, has_error_mk, Hs. cbv zeta.
      destruct (lexf_ws (u " ") (join (u " ") (w2 :: ws)) (pos + zlen w) (fst (advance_pos line col w)) (snd (advance_pos line col w))) as [-> ->].
      { constructor; [apply in_ws; reflexivity|constructor]. }
      destruct (IH (pos + zlen w) (fst (advance_pos line col w)) (snd (advance_pos line col w))) as (sigs & -> & He & Hm & Hall).
      exists ((ty, w) :: sigs). split; [reflexivity|]. split; [exact He|]. split; [cbn; rewrite Hm; reflexivity|]. constructor; [exact Hf|exact Hall].
Qed.
Definition spelt (ts : list token) (ws : list pystr) : Prop := map t_text ts = ws /\ Forall typed ts.
Lemma words_tokens ws : Forall is_word ws -> spelt (lx_tokens (lexemes (join (u " ") ws))) ws /\ lex_errors (join (u " ") ws) = [].
Proof.
  intros H. rewrite lexemes_lexf. destruct (lex_words ws H 0 1 0) as (sigs & Hs & He & Hm & Ha). unfold lx_sigs in Hs. split.
  - split.
    + transitivity (map snd sigs); [|exact Hm]. rewrite <- Hs, map_map. apply map_ext. reflexivity.
    + rewrite <- Hs in Ha. rewrite Forall_map in Ha. exact Ha.
  - unfold lex_errors. rewrite <- has_error_lx_errors, lexemes_lexf. exact He.
Qed.
Lemma spelt_cons ts w ws : spelt ts (w :: ws) -> exists t ts', ts = t :: ts' /\ t_text t = w /\ typed t /\ spelt ts' ws.
Proof. intros [H1 H2]. destruct ts as [|t ts]; [discriminate|]. cbn in H1. injection H1 as <- H1. inversion H2; subst. exists t, ts. repeat split; auto. Qed.
Lemma spelt_app ts a b : spelt ts (a ++ b) -> exists x y, ts = x ++ y /\ spelt x a /\ spelt y b.
Proof. intros [H1 H2]. apply map_eq_app in H1. destruct H1 as (x & y & -> & Hx & Hy). apply Forall_app in H2. destruct H2. exists x, y. repeat split; auto. Qed.
Lemma spelt_nil ts : spelt ts [] -> ts = [].
Proof. intros [H _]. destruct ts; [reflexivity|discriminate]. Qed.

Section Write.
  Variables (E : penv) (C : pcfg).
  Definition good (w : pystr) : Prop := is_word w /\ (first_rule w INTEGER -> int_ok E w).
  Lemma good_fixed w ty : first_type lex_rules w = Some ty -> ty <> Space -> ty <> INTEGER -> good w.
  Proof. intros H Hs Hi. split; [eapply fixed_word; eassumption|]. intros Hf. apply word_type in H. exfalso. apply Hi. eapply first_rule_det; eassumption. Qed.
  Lemma good_name w : is_name w -> good w.
  Proof. intros H. split; [apply name_word; exact H|]. intros Hf. apply (name_rule _ _ H) in Hf. cbn in Hf. intuition discriminate. Qed.
  Ltac fixed := solve [eapply good_fixed; [vm_compute; reflexivity|discriminate|discriminate]].
  Lemma quote_literal v : is_pystr v -> is_literal (quote_text 34 v) /\ literal_means (quote_text 34 v) v.
  Proof.
    intros H. rewrite quote_text_lit by auto. pose proof (quote_elems_ok 34 v (or_introl eq_refl) H) as Hok. pose proof (quote_elems_value 34 v (or_introl eq_refl)) as Hv.
    split; exists 34%N, (map (quote_elem 34) v); auto.
  Qed.
  Lemma flag_text_type s : s <> no_flags -> first_type lex_rules (flag_text s) = Some REGEXP_FLAGS.
  Proof. destruct s as [[] [] [] []]; intros H; try (vm_compute; reflexivity). exfalso. apply H. reflexivity. Qed.
  Lemma flag_text_denotes s : flags_denote (flag_text s) s.
  Proof.
    destruct s as [[] [] [] []]; intros []; cbn [flag_in f_ci f_cs f_lit f_dia]; split;
      first [intros H; discriminate H
            |intros _; solve [exists 105%N; split; [vm_compute; auto|reflexivity]|exists 73%N; split; [vm_compute; auto|reflexivity]|exists 108%N; split; [vm_compute; auto|reflexivity]|exists 100%N; split; [vm_compute; auto 6|reflexivity]]
            |intros (c & Hin & Hm); vm_compute in Hin; repeat (destruct Hin as [Hin|Hin]; [subst c; try reflexivity; discriminate Hm|]); destruct Hin].
  Qed.
  Lemma good_regex v fl : regex_ok E C v -> flags_writable fl -> Forall good (regex_words v fl).
  Proof.
    intros [Hv _] Hf. constructor.
    - destruct (quote_literal v Hv) as [Hl _]. apply literal_type in Hl. split; [exists REGEXP; split; [exact Hl|discriminate]|]. intros H. pose proof (first_rule_det _ _ _ Hl H). discriminate.
    - destruct fl as [s|]; [|constructor]. destruct (Hf s eq_refl) as [Hn _]. constructor; [fixed|]. constructor; [|constructor]. eapply good_fixed; [apply flag_text_type; exact Hn|discriminate|discriminate].
  Qed.
  Lemma spelt_regex ts v fl : spelt ts (regex_words v fl) -> regex_ok E C v -> flags_writable fl -> sp_regex E C ts v fl.
  Proof.
    intros Hs [Hv Hnv] Hf. apply spelt_cons in Hs. destruct Hs as (k & ts' & -> & Hk & Htk & Hs). destruct (quote_literal v Hv) as [Hl Hm].
    assert (Hkt : is_tok REGEXP k) by (apply literal_type in Hl; rewrite <- Hk in Hl; unfold typed in Htk; eapply first_rule_det; eassumption). rewrite <- Hk in Hm.
    destruct fl as [s|].
    - apply spelt_cons in Hs. destruct Hs as (sl & ts2 & -> & Hsl & Hts & Hs). apply spelt_cons in Hs. destruct Hs as (f & ts3 & -> & Hft & Htf & Hs). apply spelt_nil in Hs. subst ts3.
      destruct (Hf s eq_refl) as [Hn Hc]. rewrite <- Hnv. apply sr_flags; auto.
      + eapply typed_is; [exact Hts|exact Hsl|vm_compute; reflexivity].
      + eapply typed_is; [exact Htf|exact Hft|apply flag_text_type; exact Hn].
      + rewrite Hft. apply flag_text_denotes.
    - apply spelt_nil in Hs. subst ts'. rewrite <- Hnv. apply sr_plain; assumption.
  Qed.
  Lemma int_word n : 0 <= n -> int_ok E (dec n) -> good (dec n).
  Proof. intros Hn Hi. split; [exists INTEGER; split; [apply dec_type; exact Hn|discriminate]|auto]. Qed.
  Lemma good_quantifier mn mx : bounds_ok E mn mx -> Forall good (quantifier_words mn mx).
  Proof.
    intros H. unfold quantifier_words.
    destruct ((mn =? 1) && (mx =? 1)) eqn:H1; [constructor|]. destruct ((mn =? 0) && (mx =? OCCURS_UNBOUNDED)) eqn:H2; [constructor; [fixed|constructor]|].
    destruct ((mn =? 1) && (mx =? OCCURS_UNBOUNDED)) eqn:H3; [constructor; [fixed|constructor]|]. destruct ((mn =? 0) && (mx =? 1)) eqn:H4; [constructor; [fixed|constructor]|].
    unfold bounds_ok, OCCURS_UNBOUNDED in *. assert (H' : 0 <= mn /\ int_ok E (dec mn) /\ (mx = -1 \/ mn <= mx /\ int_ok E (dec mx))) by (destruct H as [H|[H|[H|H]]]; [lia|lia|lia|exact H]).
    destruct H' as (Hn & Hi & Hm). destruct (mx =? -1) eqn:H5.
    - apply Forall_cons; [fixed|]. apply Forall_cons; [apply int_word; assumption|]. apply Forall_cons; [fixed|]. apply Forall_cons; [fixed|]. constructor.
    - destruct Hm as [Hm|[Hle Him]]; [lia|]. apply Forall_cons; [fixed|]. apply Forall_cons; [apply int_word; assumption|]. apply Forall_cons; [fixed|]. apply Forall_cons; [apply int_word; [lia|assumption]|]. apply Forall_cons; [fixed|]. constructor.
  Qed.
  Lemma spelt_quantifier ts mn mx : spelt ts (quantifier_words mn mx) -> bounds_ok E mn mx -> quantified ts mn mx.
  Proof.
    intros Hs H. unfold quantifier_words in Hs.
    assert (F : forall t w ty, typed t -> t_text t = w -> first_type lex_rules w = Some ty -> is_tok ty t) by (intros; eapply typed_is; eassumption).
    assert (I : forall t n, typed t -> t_text t = dec n -> 0 <= n -> int_tok n t).
    { intros t n Ht He Hn. split; [unfold typed in Ht; rewrite He in Ht; eapply first_rule_det; [exact Ht|apply dec_type; exact Hn]|rewrite He; apply dec_value_dec; exact Hn]. }
    assert (S1 : forall w ty, spelt ts [w] -> first_type lex_rules w = Some ty -> exists t, ts = [t] /\ is_tok ty t).
    { intros w ty Hx Hty. apply spelt_cons in Hx. destruct Hx as (t & ts' & -> & Ht & Htt & Hx). apply spelt_nil in Hx. subst ts'. eauto. }
    unfold OCCURS_UNBOUNDED in *.
    destruct ((mn =? 1) && (mx =? 1)) eqn:H1. { apply spelt_nil in Hs. subst. replace mn with 1 by lia. replace mx with 1 by lia. constructor. }
    destruct ((mn =? 0) && (mx =? -1)) eqn:H2. { destruct (S1 _ _ Hs eq_refl) as (t & -> & Ht). replace mn with 0 by lia. replace mx with (-1) by lia. constructor. exact Ht. }
    destruct ((mn =? 1) && (mx =? -1)) eqn:H3. { destruct (S1 _ _ Hs eq_refl) as (t & -> & Ht). replace mn with 1 by lia. replace mx with (-1) by lia. constructor. exact Ht. }
    destruct ((mn =? 0) && (mx =? 1)) eqn:H4. { destruct (S1 _ _ Hs eq_refl) as (t & -> & Ht). replace mn with 0 by lia. replace mx with 1 by lia. constructor. exact Ht. }
    assert (H' : 0 <= mn /\ (mx = -1 \/ mn <= mx)) by (unfold bounds_ok, OCCURS_UNBOUNDED in H; destruct H as [H|[H|[H|H]]]; [lia|lia|lia|destruct H as (A & _ & [B|[B _]]); auto]).
    destruct H' as [Hn Hm]. destruct (mx =? -1) eqn:H5.
    - apply spelt_cons in Hs. destruct Hs as (a & ts1 & -> & Ha & Hta & Hs). apply spelt_cons in Hs. destruct Hs as (b & ts2 & -> & Hb & Htb & Hs).
      apply spelt_cons in Hs. destruct Hs as (c & ts3 & -> & Hc & Htc & Hs). apply spelt_cons in Hs. destruct Hs as (d & ts4 & -> & Hd & Htd & Hs). apply spelt_nil in Hs. subst ts4.
      replace mx with OCCURS_UNBOUNDED by (unfold OCCURS_UNBOUNDED; lia). apply q_min; [exact (F a _ L_CURLY_BRACKET Hta Ha eq_refl)|exact (I b mn Htb Hb Hn)|exact (F c _ Q_COMMA Htc Hc eq_refl)|exact (F d _ R_CURLY_BRACKET Htd Hd eq_refl)].
    - apply spelt_cons in Hs. destruct Hs as (a & ts1 & -> & Ha & Hta & Hs). apply spelt_cons in Hs. destruct Hs as (b & ts2 & -> & Hb & Htb & Hs).
      apply spelt_cons in Hs. destruct Hs as (c & ts3 & -> & Hc & Htc & Hs). apply spelt_cons in Hs. destruct Hs as (d & ts4 & -> & Hd & Htd & Hs).
      apply spelt_cons in Hs. destruct Hs as (e & ts5 & -> & He & Hte & Hs). apply spelt_nil in Hs. subst ts5.
      apply q_range; [exact (F a _ L_CURLY_BRACKET Hta Ha eq_refl)|exact (I b mn Htb Hb Hn)|exact (F c _ Q_COMMA Htc Hc eq_refl)|apply I; [assumption|assumption|lia]|exact (F e _ R_CURLY_BRACKET Hte He eq_refl)|lia].
  Qed.
End Write.
