(** Facts about displayed parse trees. *)
From Coq Require Import String Sorted.
From Verif Require Import Base Regex LexRules Lexer Grammar Antlr ContextData Parser LexSpec LexFacts LexRuleFacts LexThms LitSpec ValueSpec
  TokenSpec GramSpec GramFacts SimFacts PropsContexts Display DisplaySpec.

(** ** The spec's and the model's escapes *)
Lemma visible_escape s : visible s = escape_ws s.
Proof.
  unfold visible, escape_ws. apply flat_map_ext. intros c. unfold escape_char. destruct (N.eq_dec c 9) as [->|H1]; [reflexivity|]. rewrite (proj2 (N.eqb_neq _ _) H1).
  destruct (N.eq_dec c 10) as [->|H2]; [reflexivity|]. rewrite (proj2 (N.eqb_neq _ _) H2). destruct (N.eq_dec c 13) as [->|H3]; [reflexivity|]. rewrite (proj2 (N.eqb_neq _ _) H3). reflexivity.
Qed.
Lemma escape_plain s : Forall (fun c => ~ In c [9; 10; 13]%N) s -> escape_ws s = s.
Proof.
  unfold escape_ws. induction 1 as [|c s Hc _ IH]; [reflexivity|]. cbn [flat_map]. rewrite IH. unfold escape_char.
  rewrite (proj2 (N.eqb_neq c 9)), (proj2 (N.eqb_neq c 10)), (proj2 (N.eqb_neq c 13)) by (intros ->; apply Hc; cbn; tauto). reflexivity.
Qed.
Lemma escape_app a b : escape_ws (a ++ b) = escape_ws a ++ escape_ws b.
Proof. apply flat_map_app. Qed.

(** ** Literals: element by element *)
Definition esc_elem (e : lit_elem) : lit_elem :=
  match e with
  | EPlain c => if (c =? 9)%N then ESimple 116 else if (c =? 10)%N then ESimple 110 else if (c =? 13)%N then ESimple 114 else EPlain c
  | _ => e
  end.
Definition elem_okx (q : N) (e : lit_elem) : Prop :=
  match e with ESimple c => In c (114%N :: simple_escape_chars) | _ => elem_ok q e end.
Lemma esc_elem_ok q e : elem_ok q e -> elem_okx q (esc_elem e).
Proof.
  destruct e as [c|c|k ds]; cbn [esc_elem]; intros H; [|right; exact H|exact H].
  destruct (c =? 9)%N; [cbn; tauto|]. destruct (c =? 10)%N; [cbn; tauto|]. destruct (c =? 13)%N; [cbn; tauto|]. exact H.
Qed.
Lemma hex_ne c : is_hex c = true -> ~ In c [9; 10; 13]%N.
Proof. intros H [<-|[<-|[<-|[]]]]; discriminate H. Qed.
Lemma simple_ne c : In c simple_escape_chars -> ~ In c [9; 10; 13]%N.
Proof. intros H. repeat (destruct H as [<-|H]; [cbn; lia|]). destruct H. Qed.
Lemma hexkey_ne k n : hex_len k = Some n -> ~ In k [9; 10; 13]%N.
Proof. intros H [<-|[<-|[<-|[]]]]; discriminate H. Qed.
Lemma esc_elem_text q e : elem_ok q e -> escape_ws (elem_text e) = elem_text (esc_elem e).
Proof.
  destruct e as [c|c|k ds]; cbn [elem_text esc_elem]; intros H.
  - unfold escape_ws. cbn [flat_map]. rewrite app_nil_r. unfold escape_char. destruct (c =? 9)%N; [reflexivity|]. destruct (c =? 10)%N; [reflexivity|]. destruct (c =? 13)%N; reflexivity.
  - apply escape_plain. constructor; [cbn; lia|]. constructor; [|constructor]. apply simple_ne. exact H.
  - destruct H as [H1 H2]. apply escape_plain. constructor; [cbn; lia|]. constructor; [eapply hexkey_ne; exact H1|]. eapply Forall_impl; [|exact H2]. apply hex_ne.
Qed.
Lemma esc_body q es : Forall (elem_ok q) es -> escape_ws (flat_map elem_text es) = flat_map elem_text (map esc_elem es).
Proof. induction 1 as [|e es He _ IH]; [reflexivity|]. cbn [flat_map map]. rewrite escape_app, IH, (esc_elem_text q e He). reflexivity. Qed.
Lemma esc_lit q es : (q = 34 \/ q = 39)%N -> Forall (elem_ok q) es -> escape_ws (lit_text q es) = lit_text q (map esc_elem es).
Proof.
  intros Hq H. unfold lit_text. change (q :: flat_map elem_text es ++ [q]) with ([q] ++ (flat_map elem_text es ++ [q])). rewrite !escape_app, (esc_body q es H).
  destruct Hq as [-> | ->]; reflexivity.
Qed.
Lemma elem_textx_inj q e e' x x' : elem_okx q e -> elem_okx q e' ->
  elem_text e ++ x = elem_text e' ++ x' -> e = e' /\ x = x'.
Proof.
  assert (S : forall c, In c (114%N :: simple_escape_chars) -> hex_len c = None) by (intros c [<-|Hc]; [reflexivity|apply simple_not_hexkey; exact Hc]).
  destruct e as [c|c|k ds], e' as [c'|c'|k' ds']; cbn [elem_okx elem_ok elem_text app]; intros H H' Heq.
  - injection Heq as -> ->. auto.
  - injection Heq as Hc _. exfalso. tauto.
  - injection Heq as Hc _. exfalso. tauto.
  - injection Heq as Hc _. exfalso. subst. tauto.
  - injection Heq as -> ->. auto.
  - injection Heq as -> _. exfalso. apply S in H. destruct H'. congruence.
  - injection Heq as Hc _. exfalso. subst. tauto.
  - injection Heq as -> _. exfalso. apply S in H'. destruct H. congruence.
  - injection Heq as -> Hd. destruct H as [H _], H' as [H' _].
    assert (Hl : List.length ds = List.length ds') by congruence.
    assert (ds = ds' /\ x = x') as [-> ->]; [|auto].
    clear H H'. revert ds' Hl Hd. induction ds as [|d ds IH]; intros [|d' ds'] Hl Hd; cbn in *; try discriminate; auto.
    injection Hl as Hl. injection Hd as -> Hd. destruct (IH _ Hl Hd) as [-> ->]. auto.
Qed.
Lemma elemx_not_quote q e x y : (q = 34 \/ q = 39)%N -> elem_okx q e -> elem_text e ++ x = q :: y -> False.
Proof.
  intros Hq He H. destruct e as [c|c|k ds]; cbn in *; injection H as Hc _; subst;
    [tauto | destruct Hq; discriminate | destruct Hq; discriminate].
Qed.
Lemma litx_body_inj q es : forall es' y y', (q = 34 \/ q = 39)%N ->
  Forall (elem_okx q) es -> Forall (elem_okx q) es' ->
  flat_map elem_text es ++ q :: y = flat_map elem_text es' ++ q :: y' -> es = es' /\ y = y'.
Proof.
  induction es as [|e es IH]; intros es' y y' Hq H H' Heq.
  - destruct es' as [|e' es']; cbn [flat_map app] in Heq.
    + injection Heq as ->. auto.
    + rewrite <- app_assoc in Heq. symmetry in Heq. inversion H'; subst.
      exfalso. eapply elemx_not_quote; eauto.
  - inversion H; subst. destruct es' as [|e' es']; cbn [flat_map app] in Heq.
    + rewrite <- app_assoc in Heq. exfalso. eapply elemx_not_quote; eauto.
    + inversion H'; subst. rewrite <- !app_assoc in Heq.
      destruct (elem_textx_inj q e e' _ _ ltac:(auto) ltac:(auto) Heq) as [-> Heq'].
      destruct (IH es' y y' Hq ltac:(auto) ltac:(auto) Heq') as [-> ->]. auto.
Qed.
(** Displayed literals delimit themselves. *)
Lemma shown_literal q es q' es' x x' : (q = 34 \/ q = 39)%N -> (q' = 34 \/ q' = 39)%N -> Forall (elem_ok q) es -> Forall (elem_ok q') es' ->
  escape_ws (lit_text q es) ++ x = escape_ws (lit_text q' es') ++ x' -> q = q' /\ map esc_elem es = map esc_elem es' /\ x = x'.
Proof.
  intros Hq Hq' H H' E. rewrite (esc_lit q es Hq H), (esc_lit q' es' Hq' H') in E. unfold lit_text in E. cbn [app] in E. injection E as -> E. rewrite <- !app_assoc in E. cbn [app] in E.
  assert (K : forall l, Forall (elem_ok q') l -> Forall (elem_okx q') (map esc_elem l)). { intros l Hl. apply Forall_map. eapply Forall_impl; [|exact Hl]. apply esc_elem_ok. }
  destruct (litx_body_inj q' _ _ x x' Hq' (K _ H) (K _ H') E) as [-> ->]. auto.
Qed.
(** What is displayed in the same way means the same. *)
Lemma esc_value e e' q : elem_ok q e -> elem_ok q e' -> esc_elem e = esc_elem e' -> elem_value e = elem_value e'.
Proof.
  assert (K : forall e, elem_ok q e -> esc_elem e <> ESimple 114 -> elem_value (esc_elem e) = elem_value e).
  { intros [c|c|k ds] _ Hn; [|reflexivity|reflexivity]. cbn [esc_elem] in *. destruct (N.eqb_spec c 9) as [Hz|_]; [try subst c; reflexivity|]. destruct (N.eqb_spec c 10) as [Hz|_]; [try subst c; reflexivity|]. destruct (N.eqb_spec c 13) as [Hz|_]; [congruence|reflexivity]. }
  assert (R : forall e, elem_ok q e -> esc_elem e = ESimple 114 -> e = EPlain 13).
  { intros [c|c|k ds] H Hn; cbn [esc_elem] in *.
    - destruct (N.eqb_spec c 9) as [Hz|_]; [try subst c; discriminate|]. destruct (N.eqb_spec c 10) as [Hz|_]; [try subst c; discriminate|]. destruct (N.eqb_spec c 13) as [Hz|_]; [try subst c; reflexivity|discriminate].
    - injection Hn as ->. exfalso. cbn in H. repeat (destruct H as [H|H]; [discriminate H|]). destruct H.
    - discriminate. }
  intros H H' E. assert (D : esc_elem e = ESimple 114 \/ esc_elem e <> ESimple 114).
  { destruct (esc_elem e) as [c|c|k ds]; [right; discriminate| |right; discriminate]. destruct (N.eq_dec c 114) as [->|Hn]; [left; reflexivity|right; congruence]. }
  destruct D as [D|D].
  - rewrite (R e H D), (R e' H' ltac:(rewrite <- E; exact D)). reflexivity.
  - rewrite <- (K e H D), <- (K e' H' ltac:(rewrite <- E; exact D)), E. reflexivity.
Qed.
Lemma esc_values q es : forall es', Forall (elem_ok q) es -> Forall (elem_ok q) es' -> map esc_elem es = map esc_elem es' -> lit_value es = lit_value es'.
Proof.
  induction es as [|e es IH]; intros [|e' es'] H H' E; try discriminate; [reflexivity|]. cbn [map] in E. injection E as E1 E2. inversion H; subst. inversion H'; subst.
  cbn [lit_value]. rewrite (esc_value e e' q), (IH es') by assumption. reflexivity.
Qed.
Lemma same_display_means w w' v : escape_ws w = escape_ws w' -> literal_means w v -> is_literal w' -> literal_means w' v.
Proof.
  intros E (q & es & Hq & He & -> & Hv) (q' & es' & Hq' & He' & ->).
  destruct (shown_literal q es q' es' [] [] Hq Hq' He He') as (<- & Em & _). { rewrite !app_nil_r. exact E. }
  exists q, es'. split; [exact Hq|]. split; [exact He'|]. split; [reflexivity|]. rewrite <- Hv. symmetry. apply (esc_values q); assumption.
Qed.

(** ** Tokens *)
(** What can follow a part of a displayed tree. *)
Definition stop (x : pystr) : Prop := x = [] \/ exists y, x = 32%N :: y \/ x = 41%N :: y.
Definition stopless (w : pystr) : Prop := Forall (fun c => c <> 32 /\ c <> 41)%N w.
Lemma stopless_inj w : forall w' x x', stopless w -> stopless w' -> stop x -> stop x' -> w ++ x = w' ++ x' -> w = w' /\ x = x'.
Proof.
  induction w as [|c w IH]; intros [|c' w'] x x' H H' Hx Hx' E; cbn [app] in E.
  - auto.
  - exfalso. apply Forall_inv in H'. destruct Hx as [Hx|[y [Hx|Hx]]]; rewrite Hx in E; [discriminate|injection E as E _; lia|injection E as E _; lia].
  - exfalso. apply Forall_inv in H. destruct Hx' as [Hy|[y [Hy|Hy]]]; rewrite Hy in E; [discriminate|injection E as E _; lia|injection E as E _; lia].
  - injection E as -> E. inversion H; subst. inversion H'; subst. destruct (IH w' x x') as [-> ->]; auto.
Qed.

(** The shapes of displayed token texts. *)
Definition is_plain (w : pystr) : Prop := escape_ws w = w /\ exists c r, w = c :: r /\ c <> 34%N /\ c <> 39%N /\ c <> 40%N /\ stopless w.
Definition leaf_shape (w : pystr) : Prop := is_literal w \/ w = [40%N] \/ w = [41%N] \/ is_plain w.
Lemma plain_shapes : forallb (fun p => forallb (avoids [9; 10; 13; 32; 34; 39; 40; 41]%N) (classes (snd p)) || ttype_eqb (fst p) L_PAREN || ttype_eqb (fst p) R_PAREN)%bool plain_rules = true.
Proof. vm_compute. reflexivity. Qed.
Lemma shape_of w ty : first_rule w ty -> ty <> Space -> leaf_shape w.
Proof.
  intros Hf Hsp. assert (Hne : w <> []) by (apply matched_nonempty; eapply first_rule_matched; exact Hf). destruct Hf as (l1 & r & l2 & Hr & Hl & _).
  assert (Hin : In (ty, r) lex_rules) by (rewrite Hr; apply in_or_app; right; left; reflexivity). destruct (rule_cases ty r Hin) as [Hp|[[_ ->]|[-> ->]]].
  - right. pose proof plain_shapes as Hk. rewrite forallb_forall in Hk. specialize (Hk _ Hp). cbn [fst snd] in Hk. apply orb_true_iff in Hk. destruct Hk as [Hk|Hk]; [apply orb_true_iff in Hk; destruct Hk as [Hk|Hk]|].
    + right. right. rewrite forallb_forall in Hk.
      assert (HF : Forall (fun x => ~ In x [9; 10; 13; 32; 34; 39; 40; 41]%N) w) by (eapply lang_classes; [exact Hl|]; intros k y Hkc Hy; eapply avoids_spec; eauto).
      split; [apply escape_plain; eapply Forall_impl; [|exact HF]; intros c Hc Hi; apply Hc; cbn in *; tauto|].
      destruct w as [|c w]; [congruence|]. exists c, w. split; [reflexivity|]. pose proof (Forall_inv HF) as Hc. repeat split; [intros ->; apply Hc; cbn; tauto|intros ->; apply Hc; cbn; tauto|intros ->; apply Hc; cbn; tauto|].
      eapply Forall_impl; [|exact HF]. intros x Hx. split; intros ->; apply Hx; cbn; tauto.
    + left. apply ttype_eqb_iff in Hk. subst ty. assert (r = ch 40) as ->. { revert Hin. cbn [lex_rules In]. intros H. repeat (destruct H as [H|H]; [first [injection H as <-; reflexivity|discriminate H]|]). destruct H. } apply lang_ch in Hl. exact Hl.
    + right. left. apply ttype_eqb_iff in Hk. subst ty. assert (r = ch 41) as ->. { revert Hin. cbn [lex_rules In]. intros H. repeat (destruct H as [H|H]; [first [injection H as <-; reflexivity|discriminate H]|]). destruct H. } apply lang_ch in Hl. exact Hl.
  - left. apply lang_QUOTED. exact Hl.
  - congruence.
Qed.
Lemma eof_shape : is_plain (u "<EOF>").
Proof. split; [reflexivity|]. exists 60%N, (u "EOF>"). split; [reflexivity|]. repeat split; try discriminate. repeat constructor; discriminate. Qed.

(** The tokens of a query: kind and text. *)
Definition leaf_ok (k : token) : Prop := (t_type k <> Space /\ first_rule (t_text k) (t_type k)) \/ (t_type k = EOF /\ t_text k = u "<EOF>").
Lemma tokens_leaf_ok q k : In k (tokens q) -> leaf_ok k.
Proof.
  unfold tokens. rewrite in_app_iff. intros [H|[<-|[]]]; [left|right; auto]. destruct (token_at q k H) as (b & a & _ & _ & _ & _ & _ & Hsp & _ & _ & Hf & _). auto.
Qed.
Lemma leaf_ok_shape k : leaf_ok k -> leaf_shape (t_text k).
Proof. intros [[Hs Hf]|[_ ->]]; [eapply shape_of; eassumption|right; right; right; apply eof_shape]. Qed.
Lemma eof_unmatched ty : ~ first_rule (u "<EOF>") ty.
Proof.
  intros (l1 & r & l2 & Hr & Hl & _). assert (Hin : In (ty, r) lex_rules) by (rewrite Hr; apply in_or_app; right; left; reflexivity).
  destruct (rule_cases ty r Hin) as [Hp|[[_ ->]|[-> ->]]].
  - assert (Hk : forallb (fun p => forallb (avoids [60]%N) (classes (snd p)))%bool plain_rules = true) by (vm_compute; reflexivity). rewrite forallb_forall in Hk. specialize (Hk _ Hp). cbn [snd] in Hk. rewrite forallb_forall in Hk.
    assert (HF : Forall (fun x => ~ In x [60]%N) (u "<EOF>")) by (eapply lang_classes; [exact Hl|]; intros k y Hkc Hy; eapply avoids_spec; eauto). apply Forall_inv in HF. apply HF. left. reflexivity.
  - apply lang_QUOTED, literal_first in Hl. destruct Hl as (c & w & E & [-> | ->]); discriminate E.
  - inversion Hl.
Qed.
Lemma leaf_type k k' : leaf_ok k -> leaf_ok k' -> t_text k = t_text k' -> t_type k = t_type k'.
Proof.
  intros [[_ H]|[H T]] [[_ H']|[H' T']] E.
  - rewrite E in H. eapply first_rule_det; eassumption.
  - exfalso. rewrite E, T' in H. apply (eof_unmatched _ H).
  - exfalso. rewrite <- E, T in H'. apply (eof_unmatched _ H').
  - congruence.
Qed.
Lemma literal_display w : is_literal w -> exists c r, escape_ws w = c :: r /\ (c = 34 \/ c = 39)%N.
Proof. intros (q & es & Hq & He & ->). rewrite (esc_lit q es Hq He). unfold lit_text. eauto. Qed.
Lemma leaf_inj k k' x x' : leaf_ok k -> leaf_ok k' -> stop x -> stop x' -> escape_ws (t_text k) ++ x = escape_ws (t_text k') ++ x' ->
  t_type k = t_type k' /\ escape_ws (t_text k) = escape_ws (t_text k') /\ x = x'.
Proof.
  intros Hk Hk' Hx Hx' E.
  assert (L : forall k, leaf_ok k -> is_literal (t_text k) -> t_type k = REGEXP).
  { intros z [[_ Hz]|[_ Hz]] Hl; [apply literal_type in Hl; eapply first_rule_det; eassumption|]. exfalso. rewrite Hz in Hl. apply literal_first in Hl. destruct Hl as (c & w & Ew & [-> | ->]); discriminate Ew. }
  assert (P : forall c r w y y', is_literal w -> c <> 34%N -> c <> 39%N -> escape_ws w ++ y = (c :: r) ++ y' -> False).
  { intros c r w y y' Hw H1 H2 Ew. destruct (literal_display w Hw) as (c0 & r0 & E0 & Hc). rewrite E0 in Ew. cbn [app] in Ew. injection Ew as -> _. tauto. }
  assert (T : t_text k = t_text k' -> x = x' -> t_type k = t_type k' /\ escape_ws (t_text k) = escape_ws (t_text k') /\ x = x') by (intros Et Ex; split; [apply leaf_type; assumption|rewrite Et; auto]).
  destruct (leaf_ok_shape k Hk) as [S|[S|[S|(S & c & r & Sc & S1 & S2 & S3 & S4)]]], (leaf_ok_shape k' Hk') as [S'|[S'|[S'|(S' & c' & r' & Sc' & S1' & S2' & S3' & S4')]]].
  - rewrite (L k Hk S), (L k' Hk' S'). split; [reflexivity|]. destruct S as (q & es & Hq & He & Eq), S' as (q' & es' & Hq' & He' & Eq'). rewrite Eq, Eq' in *.
    destruct (shown_literal q es q' es' x x' Hq Hq' He He' E) as (-> & Em & Ex). split; [|exact Ex]. rewrite (esc_lit q' es Hq' He), (esc_lit q' es' Hq' He'), Em. reflexivity.
  - exfalso. rewrite S' in E. apply (P 40%N [] _ _ _ S ltac:(discriminate) ltac:(discriminate) E).
  - exfalso. rewrite S' in E. apply (P 41%N [] _ _ _ S ltac:(discriminate) ltac:(discriminate) E).
  - exfalso. rewrite S', Sc' in E. apply (P c' r' _ _ _ S S1' S2' E).
  - exfalso. rewrite S in E. symmetry in E. apply (P 40%N [] _ _ _ S' ltac:(discriminate) ltac:(discriminate) E).
  - rewrite S, S' in E. injection E as E. apply T; [congruence|exact E].
  - exfalso. rewrite S, S' in E. discriminate E.
  - exfalso. rewrite S, S', Sc' in E. injection E as E _. congruence.
  - exfalso. rewrite S in E. symmetry in E. apply (P 41%N [] _ _ _ S' ltac:(discriminate) ltac:(discriminate) E).
  - exfalso. rewrite S, S' in E. discriminate E.
  - rewrite S, S' in E. injection E as E. apply T; [congruence|exact E].
  - exfalso. rewrite S, S', Sc' in E. injection E as E _. rewrite Sc' in S4'. apply Forall_inv in S4'. destruct S4' as [_ Z]. congruence.
  - exfalso. rewrite S, Sc in E. symmetry in E. apply (P c r _ _ _ S' S1 S2 E).
  - exfalso. rewrite S, S', Sc in E. injection E as E _. congruence.
  - exfalso. rewrite S, S', Sc in E. injection E as E _. rewrite Sc in S4. apply Forall_inv in S4. destruct S4 as [_ Z]. congruence.
  - rewrite S, S' in E. destruct (stopless_inj _ _ x x' S4 S4' Hx Hx' E) as [Et Ex]. apply T; assumption.
Qed.

(** ** Trees *)
Inductive good_tree : ptree -> Prop :=
| gt_leaf k : leaf_ok k -> good_tree (Leaf k)
| gt_node r ch : ch <> [] -> Forall good_tree ch -> good_tree (Node r ch).
Fixpoint parts (l : list ptree) (y : pystr) : pystr := match l with [] => y | c :: l' => 32%N :: to_string_tree c ++ parts l' y end.
Lemma join_parts l y : l <> [] -> 32%N :: join (u " ") (map to_string_tree l) ++ y = parts l y.
Proof.
  induction l as [|c l IH]; [congruence|]. intros _. destruct l as [|d l]; [reflexivity|]. cbn [parts]. cbn [parts] in IH. rewrite <- IH by discriminate.
  cbn [map join]. rewrite <- !app_assoc. reflexivity.
Qed.
Lemma name_plain r : stopless (rule_name r) /\ escape_ws (rule_name r) = rule_name r /\ exists c s, rule_name r = c :: s /\ c <> 32%N /\ c <> 41%N.
Proof.
  destruct r; (split; [repeat constructor; discriminate|split; [reflexivity|eexists; eexists; split; [reflexivity|split; discriminate]]]).
Qed.
Lemma name_inj r r' : rule_name r = rule_name r' -> r = r'.
Proof.
  assert (K : forall a, find (fun b => str_eqb (rule_name b) (rule_name a)) Atn.rule_names = Some a) by (destruct a; vm_compute; reflexivity).
  intros E. pose proof (K r) as H. rewrite E, (K r') in H. congruence.
Qed.
Lemma parts_stop l y : stop y -> stop (parts l y).
Proof. destruct l; [auto|]. intros _. right. eexists. left. reflexivity. Qed.
Lemma node_text r ch y : ch <> [] -> to_string_tree (Node r ch) ++ y = 40%N :: rule_name r ++ parts ch (41%N :: y).
Proof.
  intros H. rewrite <- (join_parts ch (41%N :: y) H). destruct ch as [|c ch]; [congruence|]. destruct (name_plain r) as (_ & E & _).
  change (to_string_tree (Node r (c :: ch))) with (u "(" ++ escape_ws (rule_name r) ++ u " " ++ join (u " ") (map to_string_tree (c :: ch)) ++ u ")"). rewrite E, <- !app_assoc. reflexivity.
Qed.
Lemma tree_inj t : good_tree t -> forall t' x x', good_tree t' -> stop x -> stop x' -> to_string_tree t ++ x = to_string_tree t' ++ x' -> show t = show t' /\ x = x'.
Proof.
  assert (LN : forall k r ch y z, leaf_ok k -> stop y -> ch <> [] -> to_string_tree (Leaf k) ++ y = to_string_tree (Node r ch) ++ z -> False).
  { intros k r ch y z Hk Hy Hc E. rewrite (node_text r ch z Hc) in E. cbn [to_string_tree] in E. destruct (name_plain r) as (_ & _ & c & s & Hn & N1 & N2). rewrite Hn in E.
    destruct (leaf_ok_shape k Hk) as [S|[S|[S|(S & c' & r' & Sc & S1 & S2 & S3 & S4)]]].
    - destruct (literal_display _ S) as (c0 & r0 & E0 & [-> | ->]); rewrite E0 in E; discriminate E.
    - rewrite S in E. cbn [app] in E. injection E as E. destruct Hy as [Hy|[w [Hy|Hy]]]; rewrite Hy in E; [discriminate|injection E as E _; congruence|injection E as E _; congruence].
    - rewrite S in E. discriminate E.
    - rewrite S, Sc in E. injection E as E _. congruence. }
  induction t as [k|r ch IH] using ptree_ind'; intros Hg t' x x' Hg' Hx Hx' E.
  - inversion Hg as [k0 Hk|]; subst. inversion Hg' as [k' Hk'|r' ch' Hc' _]; subst.
    + cbn [to_string_tree] in E. destruct (leaf_inj k k' x x' Hk Hk' Hx Hx' E) as (E1 & E2 & E3). split; [|exact E3]. cbn [show]. rewrite !visible_escape, E1, E2. reflexivity.
    + exfalso. eapply LN; [exact Hk|exact Hx|exact Hc'|exact E].
  - inversion Hg as [|r0 ch0 Hc Hch]; subst. inversion Hg' as [k' Hk'|r' ch' Hc' Hch']; subst.
    + exfalso. eapply (LN k' r ch x' x); [exact Hk'|exact Hx'|exact Hc|symmetry; exact E].
    + rewrite (node_text r ch x Hc), (node_text r' ch' x' Hc') in E. injection E as E.
      assert (S1 : stop (parts ch (41%N :: x))) by (apply parts_stop; right; eexists; right; reflexivity). assert (S2 : stop (parts ch' (41%N :: x'))) by (apply parts_stop; right; eexists; right; reflexivity).
      destruct (stopless_inj _ _ _ _ (proj1 (name_plain r)) (proj1 (name_plain r')) S1 S2 E) as [En Ep]. apply name_inj in En. subst r'.
      enough (map show ch = map show ch' /\ x = x') as [Em Ex] by (split; [cbn [show]; rewrite Em; reflexivity|exact Ex]).
      clear Hc Hc' Hg Hg' S1 S2 E. revert ch' Hch' Ep. induction IH as [|c ch Hc _ IHl]; intros [|c' ch'] Hch' Ep; cbn [parts] in Ep.
      * injection Ep as Ep. auto.
      * discriminate Ep.
      * discriminate Ep.
      * injection Ep as Ep. inversion Hch; subst. inversion Hch'; subst.
        assert (S1 : stop (parts ch (41%N :: x))) by (apply parts_stop; right; eexists; right; reflexivity). assert (S2 : stop (parts ch' (41%N :: x'))) by (apply parts_stop; right; eexists; right; reflexivity).
        destruct (Hc ltac:(assumption) c' _ _ ltac:(assumption) S1 S2 Ep) as [E1 E2]. destruct (IHl ltac:(assumption) ch' ltac:(assumption) E2) as [E3 E4]. split; [|exact E4]. cbn [map]. rewrite E1, E3. reflexivity.
Qed.
Lemma tree_det t : good_tree t -> forall t', good_tree t' -> show t = show t' -> to_string_tree t = to_string_tree t'.
Proof.
  induction t as [k|r ch IH] using ptree_ind'; intros Hg [k'|r' ch'] Hg' E; try discriminate E.
  - cbn [show] in E. injection E as _ E. rewrite !visible_escape in E. exact E.
  - cbn [show] in E. injection E as <- E. inversion Hg as [|r0 ch0 Hc Hch]; subst. inversion Hg' as [|r1 ch1 Hc' Hch']; subst.
    enough (M : map to_string_tree ch = map to_string_tree ch'). { destruct ch as [|c ch]; [congruence|]. destruct ch' as [|c' ch']; [congruence|]. cbn [to_string_tree]. rewrite M. reflexivity. }
    clear Hc Hc' Hg Hg'. revert ch' E Hch'. induction IH as [|c ch Hc _ IHl]; intros [|c' ch'] E Hch'; try discriminate E; [reflexivity|].
    cbn [map] in *. injection E as E1 E2. inversion Hch; subst. inversion Hch'; subst. rewrite (Hc ltac:(assumption) c' ltac:(assumption) E1), (IHl ltac:(assumption) ch' E2 ltac:(assumption)). reflexivity.
Qed.

(** ** Every context has a token other than the end *)
Fixpoint weak (e : ebnf) : bool :=
  match e with
  | Tk l => existsb (ttype_eqb EOF) l
  | NT _ => false
  | Sq a b => weak a && weak b
  | Al a b => weak a || weak b
  | Op _ | St _ => true
  | Pl e => weak e
  end.
Lemma derives_proper e x : derives e x -> weak e = false -> exists k, In k (flat_map leaves x) /\ t_type k <> EOF.
Proof.
  assert (B : forall r, weak (body r) = false) by (destruct r; reflexivity).
  assert (L : forall x y, (exists k, In k (flat_map leaves x) /\ t_type k <> EOF) -> exists k, In k (flat_map leaves (x ++ y)) /\ t_type k <> EOF) by (intros x0 y0 (k & Hk & Ht); exists k; split; [rewrite flat_map_app; apply in_or_app; auto|exact Ht]).
  assert (R : forall x y, (exists k, In k (flat_map leaves y) /\ t_type k <> EOF) -> exists k, In k (flat_map leaves (x ++ y)) /\ t_type k <> EOF) by (intros x0 y0 (k & Hk & Ht); exists k; split; [rewrite flat_map_app; apply in_or_app; auto|exact Ht]).
  induction 1 as [l t Hl|r ch _ IH|a b x y _ IHa _ IHb|a b x _ IH|a b x _ IH|e|e x _ IH|e x y _ IHa _ IHb|e|e x y _ IHa _ IHb]; cbn [weak]; intros W; try discriminate W.
  - exists t. split; [left; reflexivity|]. intros E. rewrite E in Hl. assert (existsb (ttype_eqb EOF) l = true); [|congruence]. apply existsb_exists. exists EOF. split; [exact Hl|reflexivity].
  - destruct (IH (B r)) as (k & Hk & Ht). exists k. split; [|exact Ht]. cbn [flat_map leaves]. rewrite app_nil_r. exact Hk.
  - apply andb_false_iff in W. destruct W as [W|W]; [apply L; auto|apply R; auto].
  - apply orb_false_iff in W. apply IH. tauto.
  - apply orb_false_iff in W. apply IH. tauto.
  - apply L; auto.
Qed.
Lemma body_proper r ch : derives (body r) ch -> exists k, In k (flat_map leaves ch) /\ t_type k <> EOF.
Proof. intros H. apply (derives_proper _ _ H). destruct r; reflexivity. Qed.
Lemma derives_good e x : derives e x -> Forall leaf_ok (flat_map leaves x) -> Forall good_tree x.
Proof.
  induction 1 as [l t Hl|r ch Hd IH|a b x y _ IHa _ IHb|a b x _ IH|a b x _ IH|e|e x _ IH|e x y _ IHa _ IHb|e|e x y _ IHa _ IHb]; intros H; auto.
  - constructor; [|constructor]. constructor. apply Forall_inv in H. exact H.
  - cbn [flat_map leaves] in H. rewrite app_nil_r in H. constructor; [|constructor]. constructor; [|apply IH; exact H]. intros ->. destruct (body_proper r [] Hd) as (k & [] & _).
  - rewrite flat_map_app in H. apply Forall_app in H. apply Forall_app. tauto.
  - rewrite flat_map_app in H. apply Forall_app in H. apply Forall_app. tauto.
  - rewrite flat_map_app in H. apply Forall_app in H. apply Forall_app. tauto.
Qed.
Lemma parsed_good q t : antlr_parse q = Ok t -> good_tree t.
Proof.
  intros H. destruct (antlr_tree q t H) as [Hp Hl]. unfold parse_tree in Hp. apply derives_good in Hp; [apply Forall_inv in Hp; exact Hp|].
  cbn [flat_map]. rewrite app_nil_r, Hl. apply Forall_forall. intros k Hk. eapply tokens_leaf_ok. exact Hk.
Qed.
