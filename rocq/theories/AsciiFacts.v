(** Writing any query in printable ASCII. *)
From Coq Require Import String.
From Verif Require Import Base Regex LexRules Lexer LexSpec Ast Builder LitSpec ValueSpec SpellSpec LexFacts LexRuleFacts LexThms
  ValueFacts ParseFacts PropsParse WriteFacts MeanSpec MeanFacts AsciiSpec.
From Coq Require Import ZifyBool ZifyN.
Local Open Scope N_scope.

(** ** Hexadecimal digits *)
Definition hexd (d : N) : N := if d <? 10 then 48 + d else 87 + d.
Lemma hexd_ok d : d < 16 -> is_hex (hexd d) = true /\ hex_digit_val (hexd d) = d /\ printable (hexd d).
Proof.
  intros H. unfold hexd, is_hex, hex_digit_val, printable. destruct (N.ltb_spec d 10).
  - repeat split; try lia. replace (48 + d <=? 57) with true by (symmetry; apply N.leb_le; lia). lia.
  - repeat split; try lia. replace (87 + d <=? 57) with false by (symmetry; apply N.leb_gt; lia).
    replace (87 + d <=? 70) with false by (symmetry; apply N.leb_gt; lia). lia.
Qed.
Fixpoint hexn (k : nat) (c : N) : pystr :=
  match k with O => [] | S k => hexn k (c / 16) ++ [hexd (c mod 16)] end.
Lemma hexn_len k : forall c, List.length (hexn k c) = k.
Proof. induction k; intros c; cbn [hexn]; [reflexivity|]. rewrite app_length, IHk. cbn. lia. Qed.
Lemma hexn_ok k : forall c, Forall (fun d => is_hex d = true) (hexn k c) /\ Forall printable (hexn k c).
Proof.
  induction k as [|k IH]; intros c; cbn [hexn]; [auto|]. destruct (IH (c / 16)) as [A B].
  destruct (hexd_ok (c mod 16)) as (D & _ & F); [apply N.mod_lt; lia|].
  split; apply Forall_app; auto.
Qed.
Lemma hexn_value k : forall c, c < 16 ^ N.of_nat k -> hex_value (hexn k c) = c.
Proof.
  induction k as [|k IH]; intros c H.
  - cbn in H. cbn. lia.
  - cbn [hexn]. unfold hex_value. rewrite fold_left_app. cbn [fold_left].
    change (fold_left (fun a c0 : N => a * 16 + hex_digit_val c0) (hexn k (c / 16)) 0) with (hex_value (hexn k (c / 16))).
    rewrite IH.
    + destruct (hexd_ok (c mod 16)) as (_ & D & _); [apply N.mod_lt; lia|]. rewrite D.
      pose proof (N.div_mod c 16 ltac:(lia)). lia.
    + rewrite Nat2N.inj_succ, N.pow_succ_r' in H. apply N.div_lt_upper_bound; lia.
Qed.

(** ** Literals *)
Definition plainb (c : N) : bool := (32 <=? c) && (c <=? 126).
Definition asciied (e : lit_elem) : lit_elem :=
  match e with EPlain c => if plainb c then e else EHex 85 (hexn 8 c) | _ => e end.
Lemma hex_printable d : is_hex d = true -> printable d.
Proof. unfold is_hex, printable. intros H. lia. Qed.
Lemma simple_printable c : In c simple_escape_chars -> printable c.
Proof. unfold printable. revert c. apply Forall_forall. vm_compute. repeat constructor; discriminate. Qed.
Lemma asciied_ok q e : elem_ok q e -> elem_ok q (asciied e) /\ elem_value (asciied e) = elem_value e /\ Forall printable (elem_text (asciied e)).
Proof.
  assert (P92 : printable 92) by (unfold printable; lia).
  destruct e as [c|c|k ds]; intros H; cbn [asciied].
  - unfold plainb. destruct ((32 <=? c) && (c <=? 126)) eqn:Hc.
    + split; [exact H|]. split; [reflexivity|]. cbn [elem_text]. constructor; [unfold printable; lia|constructor].
    + destruct H as (_ & _ & H). split; [|split].
      * cbn [elem_ok]. rewrite hexn_len. split; [reflexivity|apply hexn_ok].
      * cbn [elem_value]. rewrite hexn_value by (change (16 ^ N.of_nat 8) with 4294967296; lia).
        apply N.leb_le in H. rewrite H. reflexivity.
      * cbn [elem_text]. constructor; [exact P92|]. constructor; [unfold printable; lia|apply hexn_ok].
  - split; [exact H|]. split; [reflexivity|]. cbn [elem_text]. constructor; [exact P92|]. constructor; [apply simple_printable; exact H|constructor].
  - split; [exact H|]. split; [reflexivity|]. cbn [elem_text]. destruct H as [Hk H]. constructor; [exact P92|]. constructor.
    + unfold hex_len in Hk. unfold printable. destruct (N.eqb_spec k 120); [lia|]. destruct (N.eqb_spec k 117); [lia|]. destruct (N.eqb_spec k 85); [lia|discriminate].
    + eapply Forall_impl; [|exact H]. intros d Hd. apply hex_printable. exact Hd.
Qed.
Lemma asciied_all q es : Forall (elem_ok q) es ->
  Forall (elem_ok q) (map asciied es) /\ lit_value (map asciied es) = lit_value es /\ Forall printable (flat_map elem_text (map asciied es)).
Proof.
  induction 1 as [|e es He _ IH]; cbn [map lit_value flat_map]; [auto|].
  destruct (asciied_ok _ _ He) as (A & B & D). destruct IH as (A' & B' & D'). rewrite B, B'.
  split; [constructor; assumption|]. split; [reflexivity|]. apply Forall_app. auto.
Qed.
Lemma ascii_literal w v : literal_means w v -> exists w', literal_means w' v /\ printable_text w'.
Proof.
  intros (q & es & Hq & Hes & -> & Hv). destruct (asciied_all q es Hes) as (A & B & D).
  exists (lit_text q (map asciied es)). split.
  - exists q, (map asciied es). rewrite B. auto.
  - assert (Pq : printable q) by (unfold printable; destruct Hq; lia).
    unfold printable_text, lit_text. constructor; [exact Pq|]. apply Forall_app. split; [exact D|]. constructor; [exact Pq|constructor].
Qed.
Lemma literal_means_is w v : literal_means w v -> is_literal w.
Proof. intros (q & es & A & B & D & _). exists q, es. auto. Qed.

(** ** Other words *)
Definition printable_cls (c : cls) : bool :=
  negb (c_neg c) && forallb (fun p => (32 <=? fst p) && (snd p <=? 126)) (c_ranges c).
Lemma printable_cls_spec c x : printable_cls c = true -> in_cls c x = true -> printable x.
Proof.
  unfold printable_cls, in_cls. rewrite andb_true_iff, forallb_forall. intros [Hn Hb] Hx. destruct (c_neg c); [discriminate|].
  unfold in_ranges in Hx. apply existsb_exists in Hx. destruct Hx as ([a b] & Hin & Hx). specialize (Hb _ Hin). cbn [fst snd] in *.
  unfold printable. lia.
Qed.
Lemma plain_rules_printable : forallb (fun p => forallb printable_cls (classes (snd p))) plain_rules = true.
Proof. vm_compute. reflexivity. Qed.
Lemma plain_word w ty : first_rule w ty -> ty <> REGEXP -> ty <> Space -> printable_text w.
Proof.
  intros Hf H1 H2. pose proof (first_rule_text w ty Hf) as Ht. destruct (first_rule_in _ _ Hf) as (r & Hin & Hl).
  destruct (rule_cases ty r Hin) as [Hp|[[[->| ->] _]|[-> _]]]; try congruence; [|contradiction].
  unfold printable_text. eapply lang_classes; [exact Hl|]. intros c x Hc Hx.
  pose proof plain_rules_printable as A. rewrite forallb_forall in A. specialize (A _ Hp). cbn [snd] in A. rewrite forallb_forall in A.
  eapply printable_cls_spec; [apply A; exact Hc|exact Hx].
Qed.

(** ** Words and queries *)
(** The same word in printable ASCII. *)
Definition respelt (t : token) (w : pystr) : Prop :=
  first_rule w (t_type t) /\ printable_text w /\
  (t_type t = REGEXP -> exists v, literal_means (t_text t) v /\ literal_means w v) /\
  (t_type t <> REGEXP -> w = t_text t).
Lemma respell t : typed t -> t_type t <> Space -> (t_type t = REGEXP -> decodable (t_text t)) -> exists w, respelt t w.
Proof.
  intros Ht Hs Hd. unfold respelt, typed in *. destruct (ttype_eq_dec (t_type t) REGEXP) as [E|E].
  - destruct (Hd E) as (v & Hv). destruct (ascii_literal _ _ Hv) as (w & Hw & Hp). exists w.
    split; [rewrite E; apply literal_type; eapply literal_means_is; exact Hw|]. split; [exact Hp|].
    split; [intros _; exists v; auto|congruence].
  - exists (t_text t). split; [exact Ht|]. split; [eapply plain_word; eassumption|]. split; [congruence|reflexivity].
Qed.
Lemma respell_all l : Forall (fun t => typed t /\ t_type t <> Space /\ (t_type t = REGEXP -> decodable (t_text t))) l ->
  exists ws, Forall2 respelt l ws.
Proof.
  induction 1 as [|t l (A & B & D) _ (ws & IH)]; [exists []; constructor|].
  destruct (respell t A B D) as (w & Hw). exists (w :: ws). constructor; assumption.
Qed.
Lemma join_printable sep ws : printable_text sep -> Forall printable_text ws -> printable_text (join sep ws).
Proof.
  intros Hs. unfold printable_text in *. induction 1 as [|w ws Hw Hws IH]; cbn [join]; [constructor|].
  destruct ws as [|w' ws]; [exact Hw|]. apply Forall_app. split; [exact Hw|]. apply Forall_app. split; [exact Hs|exact IH].
Qed.
