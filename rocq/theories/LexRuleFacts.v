(** What the individual lexer rules match. *)
From Coq Require Import String.
From Verif Require Import Base Regex RegexFacts LexRules Lexer LexSpec LexFacts LitSpec.
From Coq Require Import ZifyBool ZifyN.

(** ** Characters occurring in the words of a rule *)
Fixpoint classes (r : regex) : list cls :=
  match r with
  | Emp | Eps => []
  | Chr c => [c]
  | Cat r s | Bar r s => classes r ++ classes s
  | Rep r => classes r
  end.

Lemma lang_classes (P : N -> Prop) r w :
  lang r w -> (forall c x, In c (classes r) -> in_cls c x = true -> P x) -> Forall P w.
Proof.
  induction 1 as [|c x Hx|r s x y _ IHx _ IHy|r s x _ IH|r s x _ IH|r|r x y _ IHx _ IHy];
    intros HP; cbn [classes] in HP.
  - constructor.
  - repeat constructor. apply (HP c); [left; reflexivity|exact Hx].
  - apply Forall_app. split; [apply IHx|apply IHy]; intros c z Hc; apply HP; apply in_or_app; auto.
  - apply IH. intros c z Hc. apply HP. apply in_or_app; auto.
  - apply IH. intros c z Hc. apply HP. apply in_or_app; auto.
  - constructor.
  - apply Forall_app. split; [apply IHx|apply IHy]; intros c z Hc; apply HP; auto.
Qed.

(** A positive class whose ranges avoid the given characters. *)
Definition avoids (bad : list N) (c : cls) : bool :=
  negb (c_neg c) && forallb (fun x => negb (in_ranges (c_ranges c) x)) bad.
Lemma avoids_spec bad c x : avoids bad c = true -> in_cls c x = true -> ~ In x bad.
Proof.
  unfold avoids, in_cls. rewrite andb_true_iff, forallb_forall. intros [Hn Hb] Hx Hin.
  destruct (c_neg c); [discriminate|]. specialize (Hb x Hin). rewrite Hx in Hb. discriminate.
Qed.

Definition ws_list : list N := map fst ws_chars.
Lemma in_ws x : in_ranges ws_chars x = true <-> In x ws_list.
Proof.
  unfold in_ranges. rewrite existsb_exists. split.
  - intros ([a b] & Hin & H). cbn [fst snd] in H.
    assert (Hab : a = b) by (revert Hin; cbn; intuition congruence).
    assert (x = a) by lia. subst x. apply (in_map fst _ _ Hin).
  - intros H. apply in_map_iff in H. destruct H as ([a b] & <- & Hin). exists (a, b). split; [exact Hin|].
    assert (Hab : a = b) by (revert Hin; cbn; intuition congruence). cbn [fst snd]. lia.
Qed.
Definition is_ws (x : N) : Prop := In x ws_list.

(** Rules other than literals and white space: no quote, white space or backslash. *)
Definition plain_rules : rules :=
  filter (fun p => negb (ttype_eqb (fst p) REGEXP || ttype_eqb (fst p) QUOTED_STRING || ttype_eqb (fst p) Space)) lex_rules.
Definition bad_chars : list N := (34 :: 39 :: 92 :: ws_list)%N.

Lemma plain_rules_avoid : forallb (fun p => forallb (avoids bad_chars) (classes (snd p))) plain_rules = true.
Proof. vm_compute. reflexivity. Qed.

Lemma rule_cases ty r : In (ty, r) lex_rules ->
  In (ty, r) plain_rules \/ ((ty = REGEXP \/ ty = QUOTED_STRING) /\ r = QUOTED) \/
  (ty = Space /\ r = set ws_chars).
Proof.
  intros H. unfold plain_rules. destruct (ttype_eqb ty REGEXP || ttype_eqb ty QUOTED_STRING || ttype_eqb ty Space) eqn:E.
  - right. revert H E. cbn [lex_rules In]. intros H E.
    repeat (destruct H as [H|H]; [injection H as <- <-; first [discriminate E | auto]|]).
    destruct H.
  - left. apply filter_In. split; [exact H|]. cbn [fst]. rewrite E. reflexivity.
Qed.

Lemma plain_rule_chars ty r w : In (ty, r) plain_rules -> lang r w -> Forall (fun x => ~ In x bad_chars) w.
Proof.
  intros Hin Hl. eapply lang_classes; [exact Hl|]. intros c x Hc Hx.
  pose proof plain_rules_avoid as H. rewrite forallb_forall in H. specialize (H _ Hin). cbn [snd] in H.
  rewrite forallb_forall in H. eapply avoids_spec; eauto.
Qed.

Lemma matched_cases w : matched w ->
  Forall (fun x => ~ In x bad_chars) w \/ lang QUOTED w \/ exists c, w = [c] /\ is_ws c.
Proof.
  intros (ty & r & Hin & Hl). destruct (rule_cases _ _ Hin) as [H|[[_ ->]|[_ ->]]].
  - left. eapply plain_rule_chars; eauto.
  - right. left. exact Hl.
  - right. right. apply lang_chr in Hl. destruct Hl as (x & -> & Hx). exists x. split; [reflexivity|].
    apply in_ws. exact Hx.
Qed.

(** ** Literals *)
Lemma lang_ch x w : lang (ch x) w <-> w = [x].
Proof.
  unfold ch. rewrite lang_chr. unfold in_cls, in_ranges. cbn [c_neg c_ranges existsb fst snd].
  split.
  - intros (y & -> & H). f_equal. lia.
  - intros ->. exists x. split; [reflexivity|]. lia.
Qed.

Lemma in_hex x : in_ranges hex_chars x = is_hex x.
Proof. unfold in_ranges, is_hex. cbn [hex_chars existsb fst snd]. rewrite !orb_false_r, orb_assoc. reflexivity. Qed.

Lemma lang_HEX w : lang HEX w <-> exists x, w = [x] /\ is_hex x = true.
Proof.
  unfold HEX, set. rewrite lang_chr. unfold in_cls. cbn [c_neg c_ranges].
  split; intros (x & -> & H); exists x; (split; [reflexivity|]); rewrite in_hex in *; exact H.
Qed.

Lemma lang_hexes k : forall w, lang (cats (repeat HEX (S k))) w <->
  List.length w = S k /\ Forall (fun d => is_hex d = true) w.
Proof.
  induction k as [|k IH]; intros w.
  - cbn [repeat cats]. rewrite lang_HEX. split.
    + intros (x & -> & H). auto.
    + intros [H1 H2]. destruct w as [|x [|y w]]; try discriminate. inversion H2; subst. eauto.
  - change (cats (repeat HEX (S (S k)))) with (Cat HEX (cats (repeat HEX (S k)))).
    rewrite lang_cat. split.
    + intros (a & b & -> & Ha & Hb). apply lang_HEX in Ha. destruct Ha as (x & -> & Hx).
      apply IH in Hb. destruct Hb as [Hb1 Hb2]. cbn. split; [lia|]. constructor; auto.
    + intros [H1 H2]. destruct w as [|x w]; [discriminate|]. inversion H2; subst.
      exists [x], w. split; [reflexivity|]. split; [apply lang_HEX; eauto|]. apply IH. cbn in H1. split; [lia|auto].
Qed.

Lemma in_simple x : in_ranges simple_escapes x = true <-> In x simple_escape_chars.
Proof.
  unfold in_ranges. rewrite existsb_exists. split.
  - intros ([a b] & Hin & H). cbn [fst snd] in H.
    assert (Hab : a = b) by (revert Hin; cbn; intuition congruence).
    assert (x = a) by lia. subst. revert Hin. cbn. intuition congruence.
  - intros H. assert (In (x, x) simple_escapes) as H' by (revert H; cbn; intuition (subst; auto 20)).
    exists (x, x). split; [exact H'|]. cbn [fst snd]. lia.
Qed.

Definition esc_ok (e : lit_elem) : Prop := match e with EPlain _ => False | _ => elem_ok 0 e end.

Lemma lang_cats_cons r l w : l <> [] -> lang (cats (r :: l)) w <-> lang (Cat r (cats l)) w.
Proof. destruct l; [congruence|reflexivity]. Qed.

Lemma lang_esc_hex k n w : lang (Cat (ch k) (cats (repeat HEX (S n)))) w <->
  exists ds, w = k :: ds /\ List.length ds = S n /\ Forall (fun d => is_hex d = true) ds.
Proof.
  rewrite lang_cat. split.
  - intros (a & b & -> & Ha & Hb). apply lang_ch in Ha. subst a. apply lang_hexes in Hb. exists b. tauto.
  - intros (ds & -> & H). exists [k], ds. split; [reflexivity|]. split; [apply lang_ch; reflexivity|].
    apply lang_hexes. exact H.
Qed.

Lemma lang_escaped w : lang ESCAPED_CHAR w <-> exists e, esc_ok e /\ w = elem_text e.
Proof.
  unfold ESCAPED_CHAR. rewrite lang_cat.
  change (bars [set simple_escapes; cats [ch 120; HEX; HEX]; cats [ch 117; HEX; HEX; HEX; HEX];
                cats [ch 85; HEX; HEX; HEX; HEX; HEX; HEX; HEX; HEX]])
    with (Bar (set simple_escapes) (Bar (Cat (ch 120) (cats (repeat HEX 2)))
           (Bar (Cat (ch 117) (cats (repeat HEX 4))) (Cat (ch 85) (cats (repeat HEX 8)))))).
  split.
  - intros (a & b & -> & Ha & Hb). apply lang_ch in Ha. subst a.
    rewrite !lang_bar in Hb. destruct Hb as [Hb|[Hb|[Hb|Hb]]].
    + apply lang_chr in Hb. destruct Hb as (x & -> & Hx). exists (ESimple x). split; [|reflexivity].
      cbn. apply in_simple. exact Hx.
    + apply lang_esc_hex in Hb. destruct Hb as (ds & -> & Hl & Hf). exists (EHex 120 ds).
      cbn. rewrite Hl. auto.
    + apply lang_esc_hex in Hb. destruct Hb as (ds & -> & Hl & Hf). exists (EHex 117 ds).
      cbn. rewrite Hl. auto.
    + apply lang_esc_hex in Hb. destruct Hb as (ds & -> & Hl & Hf). exists (EHex 85 ds).
      cbn. rewrite Hl. auto.
  - intros (e & He & ->). destruct e as [c|c|k ds]; [destruct He| |].
    + exists [92%N], [c]. split; [reflexivity|]. split; [apply lang_ch; reflexivity|].
      rewrite lang_bar. left. apply lang_chr. exists c. split; [reflexivity|]. apply in_simple. exact He.
    + destruct He as [Hk Hf]. exists [92%N], (k :: ds). split; [reflexivity|]. split; [apply lang_ch; reflexivity|].
      rewrite !lang_bar. right. unfold hex_len in Hk.
      destruct (N.eqb_spec k 120) as [->|]; [left; apply lang_esc_hex; injection Hk as Hk; eauto|].
      destruct (N.eqb_spec k 117) as [->|]; [right; left; apply lang_esc_hex; injection Hk as Hk; eauto|].
      destruct (N.eqb_spec k 85) as [->|]; [right; right; apply lang_esc_hex; injection Hk as Hk; eauto|].
      discriminate.
Qed.

Lemma lang_rep_concat r w : lang (Rep r) w <-> exists ws, Forall (lang r) ws /\ w = concat ws.
Proof.
  split.
  - intros H. remember (Rep r) as R eqn:HR. induction H as [| | | | |r'|r' x y Hx _ Hy IHy]; try discriminate.
    + exists []. split; [constructor|reflexivity].
    + injection HR as ->. destruct (IHy eq_refl) as (ws & Hws & ->). exists (x :: ws). split; [constructor; auto|reflexivity].
  - intros (ws & Hws & ->). induction Hws; cbn; [constructor|]. constructor; auto.
Qed.

Lemma lang_elem q w : (q = 34 \/ q = 39)%N ->
  lang (Bar ESCAPED_CHAR (nset [(q,q); (92,92)]%N)) w <-> exists e, elem_ok q e /\ w = elem_text e.
Proof.
  intros Hq. rewrite lang_bar, lang_escaped. unfold nset. rewrite lang_chr. unfold in_cls, in_ranges.
  cbn [c_neg c_ranges existsb fst snd]. split.
  - intros [(e & He & ->)|(x & -> & Hx)].
    + exists e. split; [|reflexivity]. destruct e; [destruct He|exact He|exact He].
    + exists (EPlain x). split; [|reflexivity]. cbn. lia.
  - intros (e & He & ->). destruct e as [c|c|k ds].
    + right. exists c. split; [reflexivity|]. cbn in He. lia.
    + left. exists (ESimple c). auto.
    + left. exists (EHex k ds). auto.
Qed.

Lemma Forall_exists_list {A B} (P : A -> Prop) (f : A -> B) (Q : B -> Prop) ws :
  (forall w, Q w <-> exists e, P e /\ w = f e) ->
  Forall Q ws <-> exists es, Forall P es /\ ws = map f es.
Proof.
  intros HQ. split.
  - induction 1 as [|w ws Hw _ IH]; [exists []; auto|].
    apply HQ in Hw. destruct Hw as (e & He & ->). destruct IH as (es & Hes & ->).
    exists (e :: es). auto.
  - intros (es & Hes & ->). induction Hes; cbn; constructor; auto. apply HQ. eauto.
Qed.

Lemma lang_quoted q w : (q = 34 \/ q = 39)%N ->
  lang (quoted q) w <-> exists es, Forall (elem_ok q) es /\ w = lit_text q es.
Proof.
  intros Hq. unfold quoted. cbn [cats]. rewrite lang_cat. split.
  - intros (a & b & -> & Ha & Hb). apply lang_ch in Ha. subst a.
    apply lang_cat in Hb. destruct Hb as (b1 & b2 & -> & H1 & H2). apply lang_ch in H2. subst b2.
    apply lang_rep_concat in H1. destruct H1 as (ws & Hws & ->).
    apply (Forall_exists_list _ elem_text _ ws (fun w => lang_elem q w Hq)) in Hws.
    destruct Hws as (es & Hes & ->). exists es. split; [exact Hes|].
    unfold lit_text. rewrite flat_map_concat_map. reflexivity.
  - intros (es & Hes & ->). exists [q], (flat_map elem_text es ++ [q]). split; [reflexivity|].
    split; [apply lang_ch; reflexivity|]. apply lang_cat. exists (flat_map elem_text es), [q].
    split; [reflexivity|]. split; [|apply lang_ch; reflexivity].
    apply lang_rep_concat. exists (map elem_text es). split; [|apply flat_map_concat_map].
    apply (Forall_exists_list _ elem_text _ _ (fun w => lang_elem q w Hq)). eauto.
Qed.

Lemma lang_QUOTED w : lang QUOTED w <-> is_literal w.
Proof.
  unfold QUOTED, is_literal. rewrite lang_bar, !lang_quoted by auto. split.
  - intros [(es & H)|(es & H)]; [exists 39%N, es|exists 34%N, es]; tauto.
  - intros (q & es & [-> | ->] & H); [right|left]; eauto.
Qed.

(** Unique reading of literal bodies: what follows the closing quote is determined. *)
Lemma elem_text_nonempty e : elem_text e <> [].
Proof. destruct e; discriminate. Qed.

Lemma simple_not_hexkey c : In c simple_escape_chars -> hex_len c = None.
Proof. cbn. intros H. repeat (destruct H as [<-|H]; [reflexivity|]). destruct H. Qed.

Lemma elem_text_inj q e e' x x' : elem_ok q e -> elem_ok q e' ->
  elem_text e ++ x = elem_text e' ++ x' -> e = e' /\ x = x'.
Proof.
  destruct e as [c|c|k ds], e' as [c'|c'|k' ds']; cbn; intros H H' Heq.
  - injection Heq as -> ->. auto.
  - injection Heq as Hc _. exfalso. tauto.
  - injection Heq as Hc _. exfalso. tauto.
  - injection Heq as Hc _. exfalso. subst. tauto.
  - injection Heq as -> ->. auto.
  - injection Heq as -> _. exfalso. apply simple_not_hexkey in H. destruct H'. congruence.
  - injection Heq as Hc _. exfalso. subst. tauto.
  - injection Heq as -> _. exfalso. apply simple_not_hexkey in H'. destruct H. congruence.
  - injection Heq as -> Hd. destruct H as [H _], H' as [H' _].
    assert (Hl : List.length ds = List.length ds') by congruence.
    assert (ds = ds' /\ x = x') as [-> ->]; [|auto].
    clear H H'. revert ds' Hl Hd. induction ds as [|d ds IH]; intros [|d' ds'] Hl Hd; cbn in *; try discriminate; auto.
    injection Hl as Hl. injection Hd as -> Hd. destruct (IH _ Hl Hd) as [-> ->]. auto.
Qed.

Lemma elem_not_quote q e x y : (q = 34 \/ q = 39)%N -> elem_ok q e -> elem_text e ++ x = q :: y -> False.
Proof.
  intros Hq He H. destruct e as [c|c|k ds]; cbn in *; injection H as Hc _; subst;
    [tauto | destruct Hq; discriminate | destruct Hq; discriminate].
Qed.

Lemma lit_body_inj q es : forall es' y y', (q = 34 \/ q = 39)%N ->
  Forall (elem_ok q) es -> Forall (elem_ok q) es' ->
  flat_map elem_text es ++ q :: y = flat_map elem_text es' ++ q :: y' -> es = es' /\ y = y'.
Proof.
  induction es as [|e es IH]; intros es' y y' Hq H H' Heq.
  - destruct es' as [|e' es']; cbn in Heq.
    + injection Heq as ->. auto.
    + rewrite <- app_assoc in Heq. symmetry in Heq. inversion H'; subst.
      exfalso. eapply elem_not_quote; eauto.
  - inversion H; subst. destruct es' as [|e' es']; cbn in Heq.
    + rewrite <- app_assoc in Heq. exfalso. eapply elem_not_quote; eauto.
    + inversion H'; subst. rewrite <- !app_assoc in Heq.
      destruct (elem_text_inj q e e' _ _ ltac:(auto) ltac:(auto) Heq) as [-> Heq'].
      destruct (IH es' y y' Hq ltac:(auto) ltac:(auto) Heq') as [-> ->]. auto.
Qed.

Lemma literal_prefix_free w x : is_literal w -> is_literal (w ++ x) -> x = [].
Proof.
  intros (q & es & Hq & Hes & ->) (q' & es' & Hq' & Hes' & Heq).
  unfold lit_text in Heq. cbn [app] in Heq. injection Heq as -> Heq.
  rewrite <- app_assoc in Heq. cbn [app] in Heq.
  apply lit_body_inj in Heq; auto. tauto.
Qed.

Lemma literal_first w : is_literal w -> exists c w', w = c :: w' /\ (c = 34 \/ c = 39)%N.
Proof. intros (q & es & Hq & _ & ->). unfold lit_text. eauto. Qed.
Lemma literal_last w : is_literal w -> exists c w', w = w' ++ [c] /\ (c = 34 \/ c = 39)%N.
Proof. intros (q & es & Hq & _ & ->). exists q, (q :: flat_map elem_text es). auto. Qed.

Lemma literal_length w : is_literal w -> 2 <= List.length w.
Proof. intros (q & es & Hq & _ & ->). unfold lit_text. cbn. rewrite app_length. cbn. lia. Qed.

(** A match that starts with a quote is a literal; one that contains white
    space is a literal or a single white space character. *)
Lemma quote_bad c : (c = 34 \/ c = 39)%N -> In c bad_chars.
Proof. unfold bad_chars. intros [->| ->]; [left; reflexivity|right; left; reflexivity]. Qed.
Lemma ws_bad c : is_ws c -> In c bad_chars.
Proof. unfold bad_chars. intros H. do 3 right. exact H. Qed.
Lemma ws_not_quote c : is_ws c -> ~ (c = 34 \/ c = 39)%N.
Proof. unfold is_ws. intros H [->| ->]; revert H; cbn; intuition discriminate. Qed.

Lemma matched_quote c w : (c = 34 \/ c = 39)%N -> matched (c :: w) -> is_literal (c :: w).
Proof.
  intros Hc H. destruct (matched_cases _ H) as [H1|[H1|(x & H1 & H2)]].
  - inversion H1; subst. exfalso. auto using quote_bad.
  - apply lang_QUOTED. exact H1.
  - injection H1 as -> ->. exfalso. eapply ws_not_quote; eauto.
Qed.

Lemma matched_ws a c b : is_ws c -> matched (a ++ c :: b) ->
  (a = [] /\ b = []) \/ is_literal (a ++ c :: b).
Proof.
  intros Hc H. destruct (matched_cases _ H) as [H1|[H1|(x & H1 & H2)]].
  - apply Forall_app in H1. destruct H1 as [_ H1]. inversion H1; subst. exfalso. auto using ws_bad.
  - right. apply lang_QUOTED. exact H1.
  - left. destruct a as [|a1 a]; [|destruct a; discriminate]. cbn in H1. injection H1 as _ ->. auto.
Qed.

(** A matched word, extended across an inserted white space character, is not matched. *)
Lemma no_match_across x y c z : x <> [] -> matched x -> is_ws c -> ~ matched (x ++ y ++ c :: z).
Proof.
  intros Hx Hm Hc H. assert (Hl : is_literal (x ++ y ++ c :: z)).
  { replace (x ++ y ++ c :: z) with ((x ++ y) ++ c :: z) in * by (rewrite app_assoc; reflexivity).
    destruct (matched_ws _ _ _ Hc H) as [[H1 _]|H1]; [|exact H1].
    apply app_eq_nil in H1. tauto. }
  destruct (literal_first _ Hl) as (q & w & Hq & Hqq).
  destruct x as [|x0 x]; [congruence|]. cbn in Hq. injection Hq as -> _.
  apply (matched_quote _ _ Hqq) in Hm.
  apply (literal_prefix_free _ _ Hm) in Hl. destruct y; discriminate.
Qed.

(** Typing of tokens. *)
Lemma first_rule_unique_rule w ty r : first_rule w ty -> In (ty, r) lex_rules -> lang r w.
Proof.
  intros (l1 & r' & l2 & Hl & Hr & _) Hin.
  assert (r = r').
  { assert (H' : In (ty, r') lex_rules) by (rewrite Hl; apply in_or_app; right; left; reflexivity).
    clear Hl Hr. revert Hin H'. cbn [lex_rules In]. intros H1 H2.
    repeat (destruct H1 as [H1|H1];
      [injection H1 as <- <-;
       repeat (destruct H2 as [H2|H2]; [first [discriminate H2 | injection H2 as <-; reflexivity]|]); destruct H2|]).
    destruct H1. }
  subst. exact Hr.
Qed.

Lemma literal_type w : is_literal w <-> first_rule w REGEXP.
Proof.
  split.
  - intros H. destruct (matched_first w) as (ty & Hty).
    { exists REGEXP, QUOTED. split; [cbn; tauto|]. apply lang_QUOTED. exact H. }
    assert (Hm := Hty). destruct Hty as (l1 & r & l2 & Hl & Hr & Hno).
    assert (Hin : In (ty, r) lex_rules) by (rewrite Hl; apply in_or_app; right; left; reflexivity).
    destruct (literal_first _ H) as (c & w' & -> & Hc).
    destruct (rule_cases _ _ Hin) as [Hp|[[[->| ->] ->]|[-> ->]]].
    + exfalso. apply (plain_rule_chars _ _ _ Hp) in Hr. inversion Hr; subst. auto using quote_bad.
    + exact Hm.
    + exfalso. apply (Hno (REGEXP, QUOTED)); [|exact Hr].
      revert Hl. unfold lex_rules. intros Hl. 
      assert (Hq : forall l1' : rules, forall l : rules, l = l1' ++ (QUOTED_STRING, QUOTED) :: l2 ->
                 (exists l0, l = l0 ++ [(REGEXP, QUOTED); (QUOTED_STRING, QUOTED); (Space, set ws_chars)]
                   /\ forall p, In p l0 -> fst p <> QUOTED_STRING) -> In (REGEXP, QUOTED) l1').
      { induction l1' as [|p l1' IH]; intros l H1 (l0 & H2 & H3).
        - subst l. cbn in H2. destruct l0 as [|p0 l0]; [discriminate|]. injection H2 as <- _.
          exfalso. apply (H3 (QUOTED_STRING, QUOTED)); [left; reflexivity|reflexivity].
        - subst l. cbn in H2. destruct l0 as [|p0 l0].
          + injection H2 as -> _. left. reflexivity.
          + injection H2 as <- H2. right. apply (IH _ eq_refl). exists l0. split; [exact H2|].
            intros p' Hp'. apply H3. right. exact Hp'. }
      refine (Hq _ _ Hl (ex_intro _ (firstn 22 lex_rules) (conj eq_refl _))).
      intros p Hp. revert Hp. cbn [firstn lex_rules In]. intros Hp.
      repeat (destruct Hp as [<-|Hp]; [discriminate|]). destruct Hp.
    + exfalso. apply lang_chr in Hr. destruct Hr as (x & Hx & _). injection Hx as -> ->.
      apply literal_length in H. cbn in H. lia.
  - intros H. apply lang_QUOTED. eapply first_rule_unique_rule; [exact H|]. cbn. tauto.
Qed.

Lemma quoted_string_never w : ~ first_rule w QUOTED_STRING.
Proof.
  intros H. assert (Hl : lang QUOTED w) by (eapply first_rule_unique_rule; [exact H|]; cbn; tauto).
  apply lang_QUOTED, literal_type in Hl. pose proof (first_rule_det _ _ _ H Hl). discriminate.
Qed.
