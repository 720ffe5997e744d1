(** The lexer as a whole: tiling, token bounds, longest match, white space. *)
From Coq Require Import String.
From Verif Require Import Base Regex RegexFacts LexRules Lexer LexSpec LexFacts LitSpec LexRuleFacts.
From Coq Require Import ZifyBool ZifyN.

(** ** Lists *)
Lemma skipn_app_len {A} (a b : list A) : skipn (List.length a) (a ++ b) = b.
Proof. rewrite skipn_app, Nat.sub_diag, skipn_all. reflexivity. Qed.
Lemma firstn_app_len {A} (a b : list A) : firstn (List.length a) (a ++ b) = a.
Proof. rewrite firstn_app, Nat.sub_diag, firstn_all. cbn. apply app_nil_r. Qed.
Lemma zlen_app a b : zlen (a ++ b) = (zlen a + zlen b)%Z.
Proof. unfold zlen. rewrite app_length. lia. Qed.
Lemma zlen_nonneg a : (0 <= zlen a)%Z.
Proof. unfold zlen. lia. Qed.
Lemma zlen_pos a : a <> [] -> (0 < zlen a)%Z.
Proof. destruct a; [congruence|]. unfold zlen. cbn [List.length]. lia. Qed.

Lemma slice_mid a w b : slice (a ++ w ++ b) (zlen a) (zlen a + zlen w) = w.
Proof.
  unfold slice, slice_index. rewrite !zlen_app.
  pose proof (zlen_nonneg a). pose proof (zlen_nonneg w). pose proof (zlen_nonneg b).
  destruct (Z.ltb_spec (zlen a) 0); [lia|]. destruct (Z.ltb_spec (zlen a + zlen w) 0); [lia|].
  rewrite !Z.min_l by lia.
  replace (Z.to_nat (zlen a)) with (List.length a) by (unfold zlen; lia).
  replace (Z.to_nat (zlen a + zlen w - zlen a)) with (List.length w) by (unfold zlen; lia).
  rewrite skipn_app_len, firstn_app_len. reflexivity.
Qed.

(** ** Lexing from a position, with exactly enough fuel *)
Definition lexf (pos line col : Z) (s : pystr) : list lexeme := lex_loop (List.length s) pos line col s.

Lemma lexf_eq fuel pos line col s : List.length s <= fuel -> lex_loop fuel pos line col s = lexf pos line col s.
Proof. intros H. apply lex_loop_fuel; auto. Qed.

Lemma lexf_nil pos line col : lexf pos line col [] = [].
Proof. reflexivity. Qed.

Definition mk_lexeme (ty : ttype) (w : pystr) (pos line col : Z) : lexeme :=
  let t := mkTok ty w pos (pos + zlen w - 1) line col in
  match ty with Space => LxSkip t | _ => LxTok t end.

Lemma lexf_token ty w rest pos line col : longest_match (w ++ rest) ty w ->
  lexf pos line col (w ++ rest) =
  mk_lexeme ty w pos line col
  :: (let lc := advance_pos line col w in lexf (pos + zlen w) (fst lc) (snd lc) rest).
Proof.
  intros Hl. assert (Hne : w ++ rest <> []).
  { destruct w; [destruct Hl; congruence|discriminate]. }
  unfold lexf at 1. destruct (List.length (w ++ rest)) as [|n] eqn:Hlen; [destruct w; [destruct Hl; congruence|discriminate]|].
  destruct (lex_loop_step n pos line col (w ++ rest) Hne) as [(ty' & k & Hk & Hl' & ->)|(k & _ & Hno & _)].
  - destruct (longest_match_det _ _ _ _ _ Hl Hl') as [<- Hw].
    assert (k = List.length w).
    { rewrite Hw, firstn_length_le by lia. reflexivity. }
    subst k. rewrite firstn_app_len, skipn_app_len. cbv zeta. fold (zlen w). f_equal.
    apply lexf_eq. rewrite app_length in Hlen. destruct w; [destruct Hl; congruence|]. cbn in Hlen. lia.
  - exfalso. eapply no_match_longest; eauto.
Qed.

(** One step, as a case analysis on what happens at a non-empty text. *)
Lemma lexf_cases pos line col s : s <> [] ->
  (exists ty w rest, s = w ++ rest /\ longest_match s ty w /\
     lexf pos line col s = mk_lexeme ty w pos line col
       :: (let lc := advance_pos line col w in lexf (pos + zlen w) (fst lc) (snd lc) rest))
  \/ (exists bad rest, s = bad ++ rest /\ bad <> [] /\ no_match s /\
     (rest = [] \/ forall w, ~ matched (bad ++ w)) /\
     lexf pos line col s = LxErr pos line col bad
       :: (let lc := advance_pos line col bad in lexf (pos + zlen bad) (fst lc) (snd lc) rest)).
Proof.
  intros Hs. destruct (exec_longest s Hs) as [(ty & n & _ & Hn & Hl)|_].
  - left. exists ty, (firstn n s), (skipn n s). split; [symmetry; apply firstn_skipn|]. split; [exact Hl|].
    rewrite <- (firstn_skipn n s) at 1. apply lexf_token. rewrite firstn_skipn. exact Hl.
  - assert (Hlen : exists m, List.length s = S m) by (destruct s; [congruence|eexists; reflexivity]).
    destruct Hlen as [m Hm]. unfold lexf. rewrite Hm.
    destruct (lex_loop_step m pos line col s Hs) as [(ty' & k & Hk & Hl' & Heq)|(k & Hk & Hno & Hd & Heq)].
    + left. exists ty', (firstn k s), (skipn k s). split; [symmetry; apply firstn_skipn|]. split; [exact Hl'|].
      change (lex_loop (S m) pos line col s) with (lex_loop (S m) pos line col s).
      rewrite <- Hm. fold (lexf pos line col s). rewrite <- (firstn_skipn k s) at 1. apply lexf_token.
      rewrite firstn_skipn. exact Hl'.
    + right. exists (firstn (S k) s), (skipn (S k) s). split; [symmetry; apply firstn_skipn|].
      split; [destruct s; [congruence|discriminate]|]. split; [exact Hno|]. split.
      { destruct Hd as [->|Hd]; [left; apply skipn_all2; lia|right; exact Hd]. }
      rewrite Heq. cbv zeta. f_equal. apply lexf_eq. rewrite skipn_length. lia.
Qed.

(** Induction on the length of a text. *)
Lemma text_ind (P : pystr -> Prop) :
  (forall s, (forall s', List.length s' < List.length s -> P s') -> P s) -> forall s, P s.
Proof. intros H s. apply (well_founded_induction (Wf_nat.well_founded_ltof _ (@List.length N))). exact H. Qed.

Lemma app_shorter {A} (w rest : list A) : w <> [] -> List.length rest < List.length (w ++ rest).
Proof. destruct w; [congruence|]. rewrite app_length. cbn. lia. Qed.

(** ** Tiling *)
Lemma lexemes_lexf q : lexemes q = lexf 0 1 0 q.
Proof. reflexivity. Qed.

Lemma lexemes_tiles q : tiles 0 q (lexemes q).
Proof. apply lex_loop_tiles. auto. Qed.

Lemma tiles_concat : forall ls pos s, tiles pos s ls -> concat (map lx_text ls) = s.
Proof.
  induction ls as [|l ls IH]; intros pos s H; cbn in *; [auto|].
  destruct H as (_ & _ & rest & -> & H). f_equal. eapply IH; eauto.
Qed.

(** Line and column of an offset: the number of line feeds before it, and the
    number of characters after the last of them. *)
Lemma advance_pos_app a : forall b line col,
  advance_pos line col (a ++ b) = advance_pos (fst (advance_pos line col a)) (snd (advance_pos line col a)) b.
Proof.
  induction a as [|c a IH]; intros b line col; cbn [app advance_pos fst snd]; [reflexivity|].
  destruct (N.eqb c 10); apply IH.
Qed.

(** A lexeme and the text before and after it. *)
Definition lx_at (q : pystr) (l : lexeme) (before after : pystr) : Prop :=
  q = before ++ lx_text l ++ after /\ lx_start l = zlen before /\ lx_text l <> [] /\
  match l with
  | LxTok t => t_stop t = (zlen before + zlen (t_text t) - 1)%Z /\ (t_line t, t_col t) = advance_pos 1 0 before
      /\ t_type t <> Space /\ longest_match (lx_text l ++ after) (t_type t) (t_text t)
  | LxSkip t => t_stop t = (zlen before + zlen (t_text t) - 1)%Z /\ (t_line t, t_col t) = advance_pos 1 0 before
      /\ t_type t = Space /\ longest_match (lx_text l ++ after) (t_type t) (t_text t)
  | LxErr _ line col _ => (line, col) = advance_pos 1 0 before /\ no_match (lx_text l ++ after)
  end.

Lemma mk_lexeme_text ty w pos line col : lx_text (mk_lexeme ty w pos line col) = w.
Proof. unfold mk_lexeme. destruct ty; reflexivity. Qed.

Lemma lexf_at : forall s before,
  forall l1 l l2, lexf (zlen before) (fst (advance_pos 1 0 before)) (snd (advance_pos 1 0 before)) s = l1 ++ l :: l2 ->
  lx_at (before ++ s) l (before ++ concat (map lx_text l1)) (concat (map lx_text l2)).
Proof.
  induction s as [s IH] using text_ind. intros before l1 l l2 Heq.
  destruct (list_eq_dec N.eq_dec s []) as [->|Hs].
  { rewrite lexf_nil in Heq. destruct l1; discriminate. }
  set (lc := advance_pos 1 0 before) in *.
  assert (Hrest : forall w rest, s = w ++ rest -> w <> [] ->
      forall l1 l l2, lexf (zlen before + zlen w) (fst (advance_pos (fst lc) (snd lc) w)) (snd (advance_pos (fst lc) (snd lc) w)) rest = l1 ++ l :: l2 ->
      lx_at (before ++ s) l ((before ++ w) ++ concat (map lx_text l1)) (concat (map lx_text l2))).
  { intros w rest -> Hw l1' l' l2' H'. rewrite app_assoc. apply (IH rest).
    - apply app_shorter. exact Hw.
    - rewrite zlen_app, advance_pos_app. exact H'. }
  assert (Htail : forall pos line col rest, concat (map lx_text (lexf pos line col rest)) = rest).
  { intros pos line col rest. eapply tiles_concat. apply lex_loop_tiles. auto. }
  destruct (lexf_cases (zlen before) (fst lc) (snd lc) s Hs)
    as [(ty & w & rest & Hsw & Hl & Hcase)|(bad & rest & Hsw & Hbad & Hno & _ & Hcase)];
    rewrite Hcase in Heq; destruct l1 as [|x l1]; cbn [app] in Heq; injection Heq as Hx Heq.
  - subst l l2. cbv zeta. cbn [map concat]. rewrite app_nil_r. unfold lx_at. rewrite mk_lexeme_text, Htail.
    split; [rewrite Hsw at 1; reflexivity|].
    assert (Hlc : (fst lc, snd lc) = advance_pos 1 0 before) by (unfold lc; destruct (advance_pos 1 0 before); reflexivity).
    rewrite <- Hsw.
    unfold mk_lexeme. destruct ty; cbn [lx_start t_start t_stop t_text t_type t_line t_col];
      (split; [reflexivity|]; split; [apply Hl|]); (split; [lia|]; split; [exact Hlc|]; split; [congruence|]);
      exact Hl.
  - subst x. cbn [map concat]. rewrite mk_lexeme_text, app_assoc. apply (Hrest w rest Hsw); [apply Hl|exact Heq].
  - subst l l2. cbv zeta. cbn [map concat]. rewrite app_nil_r. unfold lx_at. cbn [lx_text lx_start]. rewrite Htail.
    split; [rewrite Hsw at 1; reflexivity|]. split; [reflexivity|]. split; [exact Hbad|].
    rewrite <- Hsw. split; [unfold lc; destruct (advance_pos 1 0 before); reflexivity|exact Hno].
  - subst x. cbn [map concat lx_text]. rewrite app_assoc. apply (Hrest bad rest Hsw Hbad). exact Heq.
Qed.

Lemma lexemes_at q l1 l l2 : lexemes q = l1 ++ l :: l2 ->
  lx_at q l (concat (map lx_text l1)) (concat (map lx_text l2)).
Proof. intros H. apply (lexf_at q [] l1 l l2). exact H. Qed.

(** The tokens the parser sees. *)
Lemma in_lx_tokens t ls : In t (lx_tokens ls) <-> In (LxTok t) ls.
Proof.
  unfold lx_tokens. rewrite in_flat_map. split.
  - intros (x & Hx & Ht). destruct x as [t'|t'|? ? ? ?]; try destruct Ht. subst. exact Hx. contradiction.
  - intros H. exists (LxTok t). split; [exact H|left; reflexivity].
Qed.

Lemma token_at q t : In t (lx_tokens (lexemes q)) ->
  exists before after, q = before ++ t_text t ++ after /\ t_start t = zlen before /\
    t_stop t = (zlen before + zlen (t_text t) - 1)%Z /\ t_text t <> [] /\
    (t_line t, t_col t) = advance_pos 1 0 before /\
    t_type t <> Space /\ longest_match (t_text t ++ after) (t_type t) (t_text t).
Proof.
  intros H. apply in_lx_tokens in H. apply in_split in H. destruct H as (l1 & l2 & H).
  destruct (lexemes_at _ _ _ _ H) as (Hq & Hst & Hne & Hstop & Hlc & Hsp & Hl). cbn [lx_text lx_start] in *.
  exists (concat (map lx_text l1)), (concat (map lx_text l2)). auto 10.
Qed.

Lemma token_bounds q t : In t (lx_tokens (lexemes q)) ->
  (0 <= t_start t <= t_stop t)%Z /\ (t_stop t < zlen q)%Z /\
  slice q (t_start t) (t_stop t + 1) = t_text t.
Proof.
  intros H. destruct (token_at q t H) as (b & a & Hq & Hst & Hsp & Hne & _).
  pose proof (zlen_pos _ Hne). pose proof (zlen_nonneg a). pose proof (zlen_nonneg b).
  rewrite Hst, Hsp. repeat split; try lia.
  - rewrite Hq, !zlen_app. lia.
  - replace (zlen b + zlen (t_text t) - 1 + 1)%Z with (zlen b + zlen (t_text t))%Z by lia.
    rewrite Hq at 1. apply slice_mid.
Qed.

(** Tokens come in text order. *)
Fixpoint ordered (pos : Z) (ts : list token) : Prop :=
  match ts with
  | [] => True
  | t :: ts' => (pos <= t_start t /\ t_start t <= t_stop t)%Z /\ ordered (t_stop t + 1) ts'
  end.
Lemma ordered_weaken ts : forall p p', (p <= p')%Z -> ordered p' ts -> ordered p ts.
Proof. destruct ts; cbn; intros p p' H; [auto|]. intuition lia. Qed.

Lemma lexf_ordered : forall s pos line col, ordered pos (lx_tokens (lexf pos line col s)).
Proof.
  induction s as [s IH] using text_ind. intros pos line col.
  destruct (list_eq_dec N.eq_dec s []) as [->|Hs]; [exact I|].
  destruct (lexf_cases pos line col s Hs)
    as [(ty & w & rest & Hsw & Hl & ->)|(bad & rest & Hsw & Hbad & Hno & _ & ->)]; cbv zeta.
  - assert (Hw : w <> []) by apply Hl. pose proof (zlen_pos _ Hw).
    assert (Hr : List.length rest < List.length s) by (rewrite Hsw; apply app_shorter; exact Hw).
    pose proof (IH rest Hr (pos + zlen w)%Z (fst (advance_pos line col w)) (snd (advance_pos line col w))) as Hord.
    unfold mk_lexeme, lx_tokens.
    destruct ty; cbn [flat_map app ordered t_start t_stop]; try (split; [lia|]);
      (eapply ordered_weaken; [|exact Hord]; lia).
  - pose proof (zlen_pos _ Hbad).
    assert (Hr : List.length rest < List.length s) by (rewrite Hsw; apply app_shorter; exact Hbad).
    change (lx_tokens (LxErr pos line col bad :: ?x)) with (lx_tokens x).
    eapply ordered_weaken; [|apply IH; exact Hr]. lia.
Qed.

(** ** What each token type looks like *)
Lemma lang_word s : forall w, lang (word s) w <-> w = s.
Proof.
  induction s as [|x s IH]; intros w; cbn [word].
  - apply lang_eps.
  - destruct s as [|y s]; [apply lang_ch|]. rewrite lang_cat. split.
    + intros (a & b & -> & Ha & Hb). apply lang_ch in Ha. apply IH in Hb. subst. reflexivity.
    + intros ->. exists [x], (y :: s). repeat split; [apply lang_ch; reflexivity|apply IH; reflexivity].
Qed.
Lemma lang_bars l : forall w, lang (bars l) w <-> exists r, In r l /\ lang r w.
Proof.
  induction l as [|r l IH]; intros w; cbn [bars].
  - split; [intros H; exfalso; revert H; apply lang_emp|intros (r & [] & _)].
  - destruct l as [|r' l].
    + split; [intros H; exists r; split; [left; reflexivity|exact H]|]. intros (r' & [<-|[]] & H). exact H.
    + rewrite lang_bar, IH. split.
      * intros [H|(r0 & Hr & H)]; [exists r; split; [left; reflexivity|exact H]|exists r0; split; [right; exact Hr|exact H]].
      * intros (r0 & [<-|Hr] & H); [left; exact H|right; eauto].
Qed.
Lemma lang_set l w : lang (set l) w <-> exists x, w = [x] /\ in_ranges l x = true.
Proof. unfold set. rewrite lang_chr. reflexivity. Qed.
Lemma lang_rep_set l w : lang (Rep (set l)) w <-> Forall (fun x => in_ranges l x = true) w.
Proof.
  split.
  - intros H. apply lang_rep_concat in H. destruct H as (ws & Hws & ->).
    induction Hws as [|x ws Hx _ IH]; [constructor|]. apply lang_set in Hx. destruct Hx as (c & -> & Hc).
    cbn. constructor; auto.
  - induction 1 as [|x w Hx _ IH]; [constructor|]. change (x :: w) with ([x] ++ w). constructor; [|exact IH].
    apply lang_set. eauto.
Qed.
Lemma lang_plus_set l w : lang (plus (set l)) w <-> w <> [] /\ Forall (fun x => in_ranges l x = true) w.
Proof.
  unfold plus. rewrite lang_cat. split.
  - intros (a & b & -> & Ha & Hb). apply lang_set in Ha. destruct Ha as (c & -> & Hc).
    apply lang_rep_set in Hb. split; [discriminate|]. constructor; auto.
  - intros [Hne H]. destruct w as [|x w]; [congruence|]. inversion H; subst. exists [x], w.
    split; [reflexivity|]. split; [apply lang_set; eauto|apply lang_rep_set; assumption].
Qed.

Definition is_flag_char (c : N) : Prop := In c (u "iIcCld").
Lemma in_flag_chars c : in_ranges flag_chars c = true <-> is_flag_char c.
Proof.
  unfold in_ranges, is_flag_char. rewrite existsb_exists. split.
  - intros ([a b] & Hin & H). cbn [fst snd] in H.
    assert (Hab : a = b) by (revert Hin; cbn; intuition congruence).
    assert (c = a) by lia. subst. revert Hin. cbn. intuition congruence.
  - intros H. assert (In (c, c) flag_chars) as H' by (revert H; cbn; intuition (subst; auto 20)).
    exists (c, c). split; [exact H'|]. cbn [fst snd]. lia.
Qed.
Definition is_digit_char (c : N) : Prop := (48 <= c <= 57)%N.

(** The texts of the token types whose text matters to the tree builder. *)
Definition text_ok (ty : ttype) (w : pystr) : Prop :=
  match ty with
  | INTEGER => w <> [] /\ Forall is_digit_char w
  | REGEXP => is_literal w
  | REGEXP_FLAGS => w <> [] /\ Forall is_flag_char w
  | SIMPLE_WITHIN_SCOPE => In w scope_words
  | WITHIN => w = u "within"
  | IDENTIFIER => w <> [] /\ w <> u "within" /\ ~ In w scope_words /\ ~ Forall is_flag_char w
  | QUOTED_STRING | EOF => False
  | OPERATOR_EQ => w = u "=" | OPERATOR_NE => w = u "!="
  | _ => True
  end.

Lemma first_rule_in w ty : first_rule w ty -> exists r, In (ty, r) lex_rules /\ lang r w.
Proof.
  intros (l1 & r & l2 & Hl & Hr & _). exists r. split; [|exact Hr].
  rewrite Hl. apply in_or_app. right. left. reflexivity.
Qed.

Lemma first_rule_earlier w ty i p : first_rule w ty ->
  nth_error lex_rules i = Some p -> lang (snd p) w ->
  exists j, j <= i /\ option_map fst (nth_error lex_rules j) = Some ty.
Proof.
  intros (l1 & r & l2 & Hl & Hr & Hno) Hi Hp. exists (List.length l1). split.
  - destruct (le_lt_dec (List.length l1) i) as [H|H]; [exact H|]. exfalso.
    apply (Hno p); [|exact Hp]. rewrite Hl, nth_error_app1 in Hi by exact H. eapply nth_error_In; eauto.
  - rewrite Hl, nth_error_app2, Nat.sub_diag by auto. reflexivity.
Qed.

Lemma first_rule_not_later w ty i p : first_rule w ty ->
  nth_error lex_rules i = Some p -> lang (snd p) w ->
  In ty (map fst (firstn (S i) lex_rules)).
Proof.
  intros Hf Hi Hp. destruct (first_rule_earlier _ _ _ _ Hf Hi Hp) as (j & Hj & Ht).
  destruct (nth_error lex_rules j) as [[ty' r]|] eqn:Hn; [|discriminate]. cbn in Ht. injection Ht as ->.
  apply in_map_iff. exists (ty, r). split; [reflexivity|].
  assert (Hn' : nth_error (firstn (S i) lex_rules) j = Some (ty, r)).
  { rewrite <- (firstn_skipn (S i) lex_rules) in Hn. rewrite nth_error_app1 in Hn; [exact Hn|].
    rewrite firstn_length_le; [lia|]. apply nth_error_Some. congruence. }
  eapply nth_error_In; eauto.
Qed.

Lemma matched_nonempty w : matched w -> w <> [].
Proof.
  intros (ty & r & Hin & Hl) ->. apply nullable_lang in Hl.
  revert Hin Hl. cbn [lex_rules In]. intros Hin.
  repeat (destruct Hin as [Hin|Hin]; [injection Hin as <- <-; vm_compute; discriminate|]). destruct Hin.
Qed.

Lemma first_rule_text w ty : first_rule w ty -> text_ok ty w.
Proof.
  intros Hf. pose proof (first_rule_in _ _ Hf) as (r & Hin & Hr).
  destruct ty; cbn [text_ok]; auto;
    try (exfalso; revert Hin; cbn [lex_rules In]; intuition discriminate).
  - (* OPERATOR_EQ *) assert (H : lang (ch 61) w) by (eapply first_rule_unique_rule; [exact Hf|cbn; tauto]).
    apply lang_ch in H. exact H.
  - (* OPERATOR_NE *) assert (H : lang (word (u "!=")) w) by (eapply first_rule_unique_rule; [exact Hf|cbn; tauto]).
    apply lang_word in H. exact H.
  - (* WITHIN *) assert (H : lang (word (u "within")) w) by (eapply first_rule_unique_rule; [exact Hf|cbn; tauto]).
    apply lang_word in H. exact H.
  - assert (H : lang (bars (map word scope_words)) w) by (eapply first_rule_unique_rule; [exact Hf|cbn; tauto]).
    apply lang_bars in H. destruct H as (r' & Hr' & H). apply in_map_iff in Hr'. destruct Hr' as (s & <- & Hs).
    apply lang_word in H. subst. exact Hs.
  - assert (H : lang (plus (set flag_chars)) w) by (eapply first_rule_unique_rule; [exact Hf|cbn; tauto]).
    apply lang_plus_set in H. destruct H as [Hne H]. split; [exact Hne|].
    eapply Forall_impl; [|exact H]. intros c Hc. apply in_flag_chars. exact Hc.
  - assert (Hne : w <> []) by (apply matched_nonempty; eapply first_rule_matched; eauto).
    split; [exact Hne|]. repeat split.
    + intros ->. assert (H : In IDENTIFIER (map fst (firstn 18 lex_rules))).
      { eapply (first_rule_not_later _ _ 17); [exact Hf|reflexivity|]. apply lang_word. reflexivity. }
      revert H. cbn. intuition discriminate.
    + intros Hs. assert (H : In IDENTIFIER (map fst (firstn 19 lex_rules))).
      { eapply (first_rule_not_later _ _ 18); [exact Hf|reflexivity|]. cbn [snd]. apply lang_bars.
        exists (word w). split; [apply in_map; exact Hs|apply lang_word; reflexivity]. }
      revert H. cbn. intuition discriminate.
    + intros Hs. assert (H : In IDENTIFIER (map fst (firstn 20 lex_rules))).
      { eapply (first_rule_not_later _ _ 19); [exact Hf|reflexivity|]. cbn [snd]. apply lang_plus_set.
        split; [exact Hne|]. eapply Forall_impl; [|exact Hs]. intros c Hc. apply in_flag_chars. exact Hc. }
      revert H. cbn. intuition discriminate.
  - assert (H : lang (plus (set [(48,57)]%N)) w) by (eapply first_rule_unique_rule; [exact Hf|cbn; tauto]).
    apply lang_plus_set in H. destruct H as [Hne H]. split; [exact Hne|].
    eapply Forall_impl; [|exact H]. intros c Hc. unfold in_ranges in Hc. cbn in Hc. unfold is_digit_char. lia.
  - apply literal_type. exact Hf.
  - exfalso. eapply quoted_string_never; eauto.
Qed.

Lemma token_text_ok q t : In t (lx_tokens (lexemes q)) -> text_ok (t_type t) (t_text t) /\ t_type t <> Space.
Proof.
  intros H. destruct (token_at q t H) as (b & a & _ & _ & _ & _ & _ & Hsp & _ & _ & Hf & _).
  split; [apply first_rule_text; exact Hf|exact Hsp].
Qed.
