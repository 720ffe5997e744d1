(** Tokenising joined texts. *)
From Coq Require Import String.
From Verif Require Import Base Regex RegexFacts LexRules Lexer LexSpec LexFacts LitSpec LexRuleFacts LexThms LexWs LexSub.
From Coq Require Import ZifyBool ZifyN.
Local Open Scope Z_scope.

(** Characters that can continue a token other than a literal. *)
Definition cont_ranges : list (N * N) := [(97,122); (65,90); (48,57); (45,45); (61,61)]%N.
Definition cont (c : N) : bool := in_ranges cont_ranges c.
Definition safe (c : N) : bool := negb (cont c).
Definition within_cont (c : cls) : bool :=
  negb (c_neg c) && forallb (fun r => existsb (fun s => (fst s <=? fst r)%N && (snd r <=? snd s)%N) cont_ranges) (c_ranges c).
Lemma within_cont_spec c x : within_cont c = true -> in_cls c x = true -> cont x = true.
Proof.
  unfold within_cont, in_cls, cont, in_ranges. rewrite andb_true_iff, forallb_forall. intros [Hn Hb] Hx. destruct (c_neg c); [discriminate|].
  rewrite existsb_exists in Hx. destruct Hx as (r & Hr & Hx). specialize (Hb r Hr). rewrite existsb_exists in Hb |- *. destruct Hb as (s & Hs & Hb). exists s. split; [exact Hs|]. lia.
Qed.
Definition single (r : regex) : bool := match r with Chr _ => true | _ => false end.
Lemma plain_rules_kinds : forallb (fun p => single (snd p) || ttype_eqb (fst p) OPERATOR_NE || forallb within_cont (classes (snd p)))%bool plain_rules = true.
Proof. vm_compute. reflexivity. Qed.
Lemma single_length r w : single r = true -> lang r w -> List.length w = 1%nat.
Proof. destruct r; try discriminate. intros _ H. apply lang_chr in H. destruct H as (x & -> & _). reflexivity. Qed.
Lemma ne_rule : Forall (fun p => fst p = OPERATOR_NE -> snd p = word (u "!=")) lex_rules.
Proof. unfold lex_rules. repeat (apply Forall_cons; [cbn [fst snd]; first [intros H; discriminate H|intros _; reflexivity]|]). apply Forall_nil. Qed.
Lemma plain_ne r : In (OPERATOR_NE, r) plain_rules -> r = word (u "!=").
Proof. unfold plain_rules. rewrite filter_In. intros [H _]. pose proof ne_rule as HF. rewrite Forall_forall in HF. exact (HF _ H eq_refl). Qed.
Lemma inner_chars a c b : a <> [] -> matched (a ++ c :: b) -> is_literal (a ++ c :: b) \/ cont c = true.
Proof.
  intros Ha (ty & r & Hin & Hl). destruct (rule_cases _ _ Hin) as [H|[[_ ->]|[_ ->]]].
  - right. pose proof plain_rules_kinds as Hk. rewrite forallb_forall in Hk. specialize (Hk _ H). cbn [fst snd] in Hk. apply orb_true_iff in Hk. destruct Hk as [Hk|Hk]; [apply orb_true_iff in Hk; destruct Hk as [Hk|Hk]|].
    + apply (single_length _ _ Hk) in Hl. rewrite app_length in Hl. cbn in Hl. destruct a; [congruence|]. cbn in Hl. lia.
    + destruct ty; try discriminate Hk. rewrite (plain_ne _ H) in Hl. apply lang_word in Hl. destruct a as [|x [|y a]]; [congruence| |exfalso; apply (f_equal (@List.length _)) in Hl; cbn in Hl; rewrite app_length in Hl; cbn in Hl; lia]. cbn in Hl. injection Hl as _ -> _. reflexivity.
    + assert (HF : Forall (fun x => cont x = true) (a ++ c :: b)).
      { eapply lang_classes; [exact Hl|]. intros k x Hkc Hx. rewrite forallb_forall in Hk. eapply within_cont_spec; eauto. }
      apply Forall_app in HF. destruct HF as [_ HF]. inversion HF; subst. assumption.
  - left. apply lang_QUOTED. exact Hl.
  - exfalso. apply lang_chr in Hl. destruct Hl as (x & Hx & _). destruct a as [|y a]; [congruence|]. destruct a; discriminate.
Qed.
Lemma no_match_safe x y c z : x <> [] -> matched x -> safe c = true -> ~ matched (x ++ y ++ c :: z).
Proof.
  intros Hx Hm Hc H. replace (x ++ y ++ c :: z) with ((x ++ y) ++ c :: z) in H by (rewrite app_assoc; reflexivity).
  destruct (inner_chars (x ++ y) c z) as [Hl|Hk]; [destruct x; [congruence|discriminate]|exact H| |unfold safe in Hc; rewrite Hk in Hc; discriminate].
  rewrite <- app_assoc in Hl. destruct (literal_first _ Hl) as (q & w & Hq & Hqq). destruct x as [|x0 x]; [congruence|]. cbn in Hq. injection Hq as -> _.
  apply (matched_quote _ _ Hqq) in Hm. apply (literal_prefix_free _ _ Hm) in Hl. destruct y; discriminate.
Qed.
Definition starts_safe (z : pystr) : Prop := match z with [] => True | c :: _ => safe c = true end.
Lemma longest_extend ty w rest z : longest_match (w ++ rest) ty w -> starts_safe z -> longest_match (w ++ rest ++ z) ty w.
Proof.
  intros (Hx & _ & Hf & Hmax) Hz. split; [exact Hx|]. split; [eexists; reflexivity|]. split; [exact Hf|]. intros w' r' He Hlt Hm.
  destruct (le_lt_dec (List.length w') (List.length (w ++ rest))) as [Hle|Hgt].
  - apply (Hmax w' (skipn (List.length w') (w ++ rest))); [|exact Hlt|exact Hm].
    assert (Hp := prefix_firstn _ _ _ He). rewrite app_assoc, firstn_app in Hp. replace (List.length w' - List.length (w ++ rest))%nat with 0%nat in Hp by lia.
    cbn [firstn] in Hp. rewrite app_nil_r in Hp. rewrite Hp at 1. symmetry. apply firstn_skipn.
  - assert (Hp := prefix_firstn _ _ _ He). rewrite app_assoc, firstn_app, firstn_all2 in Hp by lia.
    destruct (List.length w' - List.length (w ++ rest))%nat as [|k] eqn:Hk; [lia|]. destruct z as [|c z]; [exfalso|].
    + rewrite app_nil_r in He. apply (f_equal (@List.length _)) in He. rewrite !app_length in *. lia.
    + cbn [firstn] in Hp. rewrite <- app_assoc in Hp. rewrite Hp in Hm. revert Hm. apply no_match_safe; auto. eapply first_rule_matched; eauto.
Qed.

(** Tokens up to lines and columns, moved. *)
Definition mv (k : Z) (t : token) : token := mkTok (t_type t) (t_text t) (t_start t + k) (t_stop t + k) 0 0.
Lemma mv_mv k k' ts : map (mv k) (map (mv k') ts) = map (mv (k' + k)) ts.
Proof. rewrite map_map. apply map_ext. intros t. unfold mv. cbn. f_equal; lia. Qed.
Lemma lx_tokens_mk ty w pos line col ls : lx_tokens (mk_lexeme ty w pos line col :: ls) = (if ttype_eqb ty Space then [] else [mkTok ty w pos (pos + zlen w - 1) line col]) ++ lx_tokens ls.
Proof. destruct ty; reflexivity. Qed.
Lemma mv_first ty w pos line col line' col' k : map (mv k) (if ttype_eqb ty Space then [] else [mkTok ty w pos (pos + zlen w - 1) line col]) =
  map (mv 0) (if ttype_eqb ty Space then [] else [mkTok ty w (pos + k) (pos + k + zlen w - 1) line' col']).
Proof. destruct (ttype_eqb ty Space); [reflexivity|]. cbn. unfold mv. cbn [t_type t_text t_start t_stop]. f_equal. f_equal; lia. Qed.
Lemma lexf_moved : forall s pos line col pos' line' col', map (mv (pos' - pos)) (lx_tokens (lexf pos line col s)) = map (mv 0) (lx_tokens (lexf pos' line' col' s)).
Proof.
  induction s as [s IH] using text_ind. intros.
  destruct (list_eq_dec N.eq_dec s []) as [->|Hs]; [reflexivity|].
  destruct (exec_longest s Hs) as [(ty & n & _ & Hn & Hl)|(_ & Hno)].
  - set (w := firstn n s) in *. set (rest := skipn n s).
    assert (Hsw : s = w ++ rest) by (symmetry; apply firstn_skipn). rewrite Hsw in Hl |- *.
    rewrite (lexf_token ty w rest pos' line' col' Hl), (lexf_token ty w rest pos line col Hl). cbv zeta.
    rewrite !lx_tokens_mk, !map_app. rewrite (mv_first ty w pos line col line' col'). replace (pos + (pos' - pos)) with pos' by lia. f_equal.
    assert (Hr : (List.length rest < List.length s)%nat) by (rewrite Hsw; apply app_shorter; apply Hl).
    replace (pos' - pos) with (pos' + zlen w - (pos + zlen w)) by lia. apply IH. exact Hr.
  - rewrite (lexf_err s pos line col Hs Hno), (lexf_err s pos' line' col' Hs Hno). cbv zeta.
    set (bad := firstn (S (read_len s)) s).
    assert (Hr : (List.length (skipn (S (read_len s)) s) < List.length s)%nat).
    { rewrite skipn_length. destruct s; [congruence|]. cbn [List.length]. lia. }
    change (lx_tokens (LxErr ?a ?b ?c ?d :: ?r)) with (lx_tokens r). replace (pos' - pos) with (pos' + zlen bad - (pos + zlen bad)) by lia. apply IH. exact Hr.
Qed.
(** The tokens of a text on its own, up to lines and columns. *)
Definition nt (s : pystr) : list token := map (mv 0) (lx_tokens (lexemes s)).
Lemma nt_lexf s pos line col : map (mv (- pos)) (lx_tokens (lexf pos line col s)) = nt s.
Proof. unfold nt. rewrite lexemes_lexf. replace (- pos) with (0 - pos) by lia. apply lexf_moved. Qed.
Lemma nt_lexf0 s pos line col : map (mv 0) (lx_tokens (lexf pos line col s)) = map (mv pos) (nt s).
Proof. rewrite <- (nt_lexf s pos line col), mv_mv. f_equal. f_equal. lia. Qed.
Lemma nt_mv0 s : map (mv 0) (nt s) = nt s.
Proof. unfold nt. rewrite mv_mv. reflexivity. Qed.
Lemma lexf_join : forall q z pos line col, has_error (lexf pos line col q) = false -> starts_safe z ->
  map (mv 0) (lx_tokens (lexf pos line col (q ++ z))) = map (mv 0) (lx_tokens (lexf pos line col q)) ++ map (mv (pos + zlen q)) (nt z) /\
  has_error (lexf pos line col (q ++ z)) = has_error (lexemes z).
Proof.
  induction q as [q IH] using text_ind. intros z pos line col He Hz.
  destruct (list_eq_dec N.eq_dec q []) as [->|Hq].
  { cbn [app]. rewrite lexf_nil. cbn [map lx_tokens flat_map app]. rewrite nt_lexf0. split; [f_equal; f_equal; cbn; lia|]. destruct (lexf_positions z pos line col 0 1 0) as (_ & B & _). rewrite lexemes_lexf. exact B. }
  destruct (lexf_cases pos line col q Hq) as [(ty & w & rest & -> & Hl & Heq)|(bad & rest & Hsw & Hbad & Hno & _ & Heq)]; rewrite Heq in He.
  - cbv zeta in He. rewrite has_error_mk in He. rewrite <- app_assoc, (lexf_token ty w (rest ++ z) pos line col (longest_extend _ _ _ _ Hl Hz)), Heq. cbv zeta.
    rewrite !lx_tokens_mk, !map_app, has_error_mk. assert (Hr : (List.length rest < List.length (w ++ rest))%nat) by (apply app_shorter; apply Hl).
    destruct (IH rest Hr z _ _ _ He Hz) as [-> ->]. split; [|reflexivity]. rewrite <- app_assoc. f_equal. f_equal. f_equal. f_equal. rewrite zlen_app. lia.
  - discriminate He.
Qed.
Lemma nt_join q z : lex_errors q = [] -> starts_safe z -> nt (q ++ z) = nt q ++ map (mv (zlen q)) (nt z) /\ (lex_errors (q ++ z) = [] <-> lex_errors z = []).
Proof.
  intros He Hz. unfold lex_errors in *. rewrite <- !has_error_lx_errors in *. unfold nt at 1 2. rewrite !lexemes_lexf in *. destruct (lexf_join q z 0 1 0 He Hz) as [A B]. rewrite A. split; [reflexivity|]. rewrite B, lexemes_lexf. reflexivity.
Qed.
(** A match in front of a text that cannot continue it. *)
Lemma word_join w ty s : first_rule w ty -> ty <> Space -> starts_safe s ->
  nt (w ++ s) = mkTok ty w 0 (zlen w - 1) 0 0 :: map (mv (zlen w)) (nt s) /\ (lex_errors (w ++ s) = [] <-> lex_errors s = []).
Proof.
  intros Hf Hty Hs.
  assert (Hl0 : longest_match (w ++ []) ty w).
  { pose proof (first_rule_matched _ _ Hf) as Hm. split; [exact (matched_nonempty _ Hm)|]. split; [eexists; reflexivity|]. split; [exact Hf|]. intros w' rest' He Hlt _. rewrite app_nil_r in He. subst w. rewrite app_length in Hlt. lia. }
  assert (A : nt w = [mkTok ty w 0 (zlen w - 1) 0 0] /\ lex_errors w = []).
  { pose proof (lexf_token ty w [] 0 1 0 Hl0) as Hx. cbv zeta in Hx. rewrite lexf_nil, app_nil_r in Hx. unfold nt, lex_errors. rewrite <- has_error_lx_errors, lexemes_lexf, Hx, lx_tokens_mk, has_error_mk.
    split; [|reflexivity]. replace (ttype_eqb ty Space) with false by (destruct ty; try reflexivity; congruence). cbn. unfold mv. cbn [t_type t_text t_start t_stop]. f_equal. f_equal; lia. }
  destruct A as [A B]. destruct (nt_join w s B Hs) as [-> H]. rewrite A. split; [reflexivity|exact H].
Qed.
(** Brackets are tokens whatever follows. *)
Definition brackets : list N := [40; 41; 91; 93]%N.
Lemma bracket_alone c x : In c brackets -> matched (c :: x) -> x = [].
Proof.
  intros Hc (ty & r & Hin & Hl). destruct (rule_cases _ _ Hin) as [H|[[_ ->]|[_ ->]]].
  - assert (Hk : forallb (fun p => single (snd p) || forallb (avoids brackets) (classes (snd p)))%bool plain_rules = true) by (vm_compute; reflexivity).
    rewrite forallb_forall in Hk. specialize (Hk _ H). cbn [snd] in Hk. apply orb_true_iff in Hk. destruct Hk as [Hk|Hk].
    + apply (single_length _ _ Hk) in Hl. destruct x; [reflexivity|discriminate].
    + exfalso. rewrite forallb_forall in Hk. assert (HF : Forall (fun x => ~ In x brackets) (c :: x)) by (eapply lang_classes; [exact Hl|]; intros k y Hkc Hy; eapply avoids_spec; eauto). inversion HF; subst. contradiction.
  - exfalso. apply lang_QUOTED, literal_first in Hl. destruct Hl as (d & w' & Hd & Hq). injection Hd as <- _. cbn in Hc. intuition congruence.
  - exfalso. apply lang_chr in Hl. destruct Hl as (y & Hy & Hx). injection Hy as <- ->. assert (Hf : forallb (fun b => negb (in_cls (mkCls false ws_chars) b)) brackets = true) by (vm_compute; reflexivity).
    rewrite forallb_forall in Hf. specialize (Hf _ Hc). rewrite Hx in Hf. discriminate.
Qed.
Lemma bracket_join c ty s : In c brackets -> first_rule [c] ty -> ty <> Space ->
  nt (c :: s) = mkTok ty [c] 0 0 0 0 :: map (mv 1) (nt s) /\ (lex_errors (c :: s) = [] <-> lex_errors s = []).
Proof.
  intros Hc Hf Hty.
  assert (Hl : longest_match ([c] ++ s) ty [c]).
  { split; [discriminate|]. split; [eexists; reflexivity|]. split; [exact Hf|]. intros w' rest' He Hlt Hm. destruct w' as [|x w']; [cbn in Hlt; lia|]. injection He as <- _. apply (bracket_alone _ _ Hc) in Hm. subst w'. cbn in Hlt. lia. }
  unfold nt at 1. unfold lex_errors. rewrite <- !has_error_lx_errors. change (c :: s) with ([c] ++ s). rewrite lexemes_lexf, (lexf_token ty [c] s 0 1 0 Hl). cbv zeta. rewrite lx_tokens_mk, has_error_mk, map_app, nt_lexf0.
  replace (ttype_eqb ty Space) with false by (destruct ty; try reflexivity; congruence). split; [reflexivity|].
  destruct (lexf_positions s (0 + zlen [c]) (fst (advance_pos 1 0 [c])) (snd (advance_pos 1 0 [c])) 0 1 0) as (_ & -> & _). rewrite ?lexemes_lexf. reflexivity.
Qed.
(** White space in front. *)
Lemma ws_join c s : is_ws c -> nt (c :: s) = map (mv 1) (nt s) /\ (lex_errors (c :: s) = [] <-> lex_errors s = []).
Proof.
  intros Hc. pose proof (ws_longest c s Hc) as Hl. unfold nt at 1. unfold lex_errors. rewrite <- !has_error_lx_errors. change (c :: s) with ([c] ++ s). rewrite lexemes_lexf, (lexf_token Space [c] s 0 1 0 Hl). cbv zeta. rewrite lx_tokens_mk, has_error_mk, map_app, nt_lexf0.
  split; [reflexivity|]. destruct (lexf_positions s (0 + zlen [c]) (fst (advance_pos 1 0 [c])) (snd (advance_pos 1 0 [c])) 0 1 0) as (_ & -> & _). rewrite ?lexemes_lexf. reflexivity.
Qed.
(** A part from token to token. *)
Lemma nt_span q pre a r post : lex_errors q = [] -> lx_tokens (lexemes q) = pre ++ (a :: r) ++ post ->
  let w := slice q (t_start a) (t_stop (last (a :: r) a) + 1) in
  nt w = map (mv (- t_start a)) (a :: r) /\ lex_errors w = [] /\ exists x y, q = x ++ w ++ y /\ zlen x = t_start a.
Proof.
  intros Herr H w. destruct (token_span q pre a r post Herr H) as (H1 & H2 & H3 & H4 & x & y & Hq & Hx & _ & _). fold w in H3, H4, Hq.
  split; [|split; [exact H4|exists x, y; auto]].
  assert (Hn : has_error (lexemes q) = false) by (apply has_error_lx_errors; exact Herr).
  destruct (exists_last (l := a :: r) ltac:(discriminate)) as (r0 & b & Hb).
  assert (Hl1 : exists l1 l2, lexemes q = l1 ++ LxTok a :: l2 /\ lx_tokens l1 = pre /\ lx_tokens l2 = r ++ post) by (apply split_first; exact H).
  destruct Hl1 as (l1 & l2 & Hl & Hp & Hr).
  assert (Hl2 : lx_tokens (LxTok a :: l2) = r0 ++ b :: post).
  { cbn. change (flat_map _ l2) with (lx_tokens l2). rewrite Hr. change (a :: r ++ post) with ((a :: r) ++ post). rewrite Hb, <- app_assoc. reflexivity. }
  destruct (split_first _ _ _ _ Hl2) as (m & l3 & Hm & Hm1 & Hm2). rewrite Hm in Hl.
  assert (Hqq : lexemes q = l1 ++ (m ++ [LxTok b]) ++ l3) by (rewrite Hl, <- app_assoc; reflexivity).
  assert (Hq3 : q = concat (map lx_text l1) ++ concat (map lx_text (m ++ [LxTok b])) ++ concat (map lx_text l3)).
  { rewrite <- !concat_app, <- !map_app, <- Hqq. symmetry. apply lexf_concat. }
  assert (Ha : t_start a = zlen (concat (map lx_text l1))).
  { assert (Hla : lexemes q = l1 ++ LxTok a :: l2) by (rewrite Hm; exact Hl). destruct (lexemes_at _ _ _ _ Hla) as (_ & Hst & _). exact Hst. }
  assert (Hbs : t_stop b = zlen (concat (map lx_text l1)) + zlen (concat (map lx_text (m ++ [LxTok b]))) - 1).
  { assert (Hlb : lexemes q = (l1 ++ m) ++ LxTok b :: l3) by (rewrite Hl, <- app_assoc; reflexivity).
    destruct (lexemes_at _ _ _ _ Hlb) as (_ & Hst & _ & Hsp & _). rewrite Hsp.
    rewrite !map_app, !concat_app, !zlen_app. cbn [map concat lx_text]. rewrite zlen_app. change (zlen []) with 0. lia. }
  assert (HW : w = concat (map lx_text (m ++ [LxTok b]))).
  { unfold w. rewrite Hb, last_last, Ha, Hbs. replace (zlen (concat (map lx_text l1)) + zlen (concat (map lx_text (m ++ [LxTok b]))) - 1 + 1) with (zlen (concat (map lx_text l1)) + zlen (concat (map lx_text (m ++ [LxTok b])))) by lia. rewrite Hq3 at 1. apply slice_mid. }
  rewrite lexemes_lexf in Hqq. destruct (lexf_suffix l1 _ q 0 1 0 Hqq) as (p & ln & c & H').
  apply lexf_prefix in H'. 2:{ rewrite <- lexemes_lexf in Hqq. rewrite Hqq, !has_error_app in Hn. apply orb_false_iff in Hn. destruct Hn as [_ Hn]. apply orb_false_iff in Hn. destruct Hn as [Hn _]. rewrite has_error_app. exact Hn. }
  rewrite <- HW in H'. rewrite <- (nt_lexf w p ln c), H', lx_tokens_app, Hm1. change (lx_tokens [LxTok b]) with [b]. rewrite <- Hb.
  assert (Hpa : p = t_start a); [|rewrite Hpa; reflexivity].
  assert (Hmf : exists m', m ++ [LxTok b] = LxTok a :: m').
  { destruct m as [|x0 m0]; cbn [app] in Hm; injection Hm as Hx0 _; [exists []; rewrite Hx0; reflexivity|eexists; rewrite Hx0; reflexivity]. }
  destruct Hmf as (m' & Hmf). rewrite Hmf in H'. destruct (list_eq_dec N.eq_dec w []) as [Hw|Hw]; [rewrite Hw, lexf_nil in H'; discriminate|].
  destruct (lexf_cases p ln c w Hw) as [(ty & ww & rest & _ & _ & Heq)|(bad & rest & _ & _ & _ & _ & Heq)]; rewrite Heq in H'; injection H' as Hxx _; [|discriminate].
  unfold mk_lexeme in Hxx. destruct ty; try discriminate Hxx; injection Hxx as <-; reflexivity.
Qed.

(** What a text may start with so that nothing in front of it runs into it. *)
Definition cont_type (ty : ttype) : bool :=
  match ty with OPERATOR_EQ | OPERATOR_NE | WITHIN | SIMPLE_WITHIN_SCOPE | REGEXP_FLAGS | IDENTIFIER | INTEGER => true | _ => false end.
Definition cls_safe (r : regex) : bool :=
  match r with Chr c => negb (c_neg c) && forallb (fun r => forallb (fun s => (snd r <? fst s)%N || (snd s <? fst r)%N) cont_ranges) (c_ranges c) | _ => false end.
Lemma safe_types : forallb (fun p => cont_type (fst p) || cls_safe (snd p)) plain_rules = true.
Proof. vm_compute. reflexivity. Qed.
Lemma cls_safe_spec r c w : cls_safe r = true -> lang r (c :: w) -> safe c = true.
Proof.
  destruct r; try discriminate. cbn [cls_safe]. intros H Hl. apply lang_chr in Hl. destruct Hl as (x & Hx & Hin). injection Hx as -> ->.
  apply andb_true_iff in H. destruct H as [Hn H]. unfold in_cls, in_ranges in Hin. destruct (c_neg _); [discriminate|]. rewrite existsb_exists in Hin. destruct Hin as (rg & Hrg & Hin).
  rewrite forallb_forall in H. specialize (H rg Hrg). unfold safe, cont, in_ranges. rewrite negb_true_iff. apply not_true_iff_false. intros He. rewrite existsb_exists in He. destruct He as (s & Hs & He).
  rewrite forallb_forall in H. specialize (H s Hs). lia.
Qed.
Lemma first_safe ty c w : first_rule (c :: w) ty -> cont_type ty = false -> safe c = true.
Proof.
  intros (l1 & r & l2 & Hl & Hr & _) Hty. assert (Hin : In (ty, r) lex_rules) by (rewrite Hl; apply in_or_app; right; left; reflexivity).
  destruct (rule_cases _ _ Hin) as [H|[[_ ->]|[_ ->]]].
  - pose proof safe_types as Hs. rewrite forallb_forall in Hs. specialize (Hs _ H). cbn [fst snd] in Hs. rewrite Hty in Hs. eapply cls_safe_spec; [exact Hs|exact Hr].
  - apply lang_QUOTED, literal_first in Hr. destruct Hr as (d & w' & Hd & Hq). injection Hd as <- _. destruct Hq as [->| ->]; reflexivity.
  - apply lang_chr in Hr. destruct Hr as (x & Hx & Hin'). injection Hx as -> ->. pose proof (proj1 (in_ws _) Hin') as Hw. assert (Hs : forallb safe ws_list = true) by (vm_compute; reflexivity). rewrite forallb_forall in Hs. apply Hs. exact Hw.
Qed.
Lemma first_tok ty w pos line col tl : match map (mv 0) (if ttype_eqb ty Space then [] else [mkTok ty w pos (pos + zlen w - 1) line col]) ++ tl with [] => True | t :: _ => cont_type (t_type t) = false end -> cont_type ty = false.
Proof. destruct ty; intros H; first [reflexivity|exact H]. Qed.
Lemma nt_starts_safe z : lex_errors z = [] -> match nt z with [] => True | t :: _ => cont_type (t_type t) = false end -> starts_safe z.
Proof.
  destruct z as [|c z]; [intros; exact I|]. unfold lex_errors, nt. rewrite <- has_error_lx_errors, lexemes_lexf.
  destruct (lexf_cases 0 1 0 (c :: z) ltac:(discriminate)) as [(ty & w & rest & Hsw & Hl & Heq)|(bad & rest & _ & _ & _ & _ & Heq)]; rewrite Heq; [|intros He; discriminate He].
  intros _. cbv zeta. rewrite lx_tokens_mk, map_app. intros Ht. apply first_tok in Ht. destruct Hl as (Hne & _ & Hf & _). destruct w as [|x w]; [congruence|]. cbn in Hsw. injection Hsw as <- _. apply (first_safe ty c w Hf Ht).
Qed.
