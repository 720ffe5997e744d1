(** The value-level functions of the tree builder meet their specification. *)
From Coq Require Import String.
From Verif Require Import Base LexRules Lexer Grammar Antlr Ast Builder LitSpec LexRuleFacts LexThms ValueSpec GramSpec GramFacts.
From Coq Require Import ZifyBool ZifyN.
Local Open Scope Z_scope.

(** ** Literals *)
Lemma parseHexChar_ok d : is_hex d = true -> parseHexChar d = Ok (hex_digit_val d).
Proof.
  unfold is_hex, parseHexChar, hex_digit_val. intros H.
  destruct ((48 <=? d)%N && (d <=? 57)%N) eqn:E1.
  - destruct (N.leb_spec d 57); [reflexivity|lia].
  - destruct ((97 <=? d)%N && (d <=? 102)%N) eqn:E2.
    + destruct (N.leb_spec d 57); [lia|]. destruct (N.leb_spec d 70); [lia|]. f_equal. 
    + destruct ((65 <=? d)%N && (d <=? 70)%N) eqn:E3; [|lia].
      destruct (N.leb_spec d 57); [lia|]. destruct (N.leb_spec d 70); [|lia]. reflexivity.
Qed.

Lemma hex_digits_ok ds : forall a, Forall (fun d => is_hex d = true) ds ->
  hex_digits a ds = Ok (fold_left (fun a c => a * 16 + hex_digit_val c)%N ds a).
Proof.
  induction ds as [|d ds IH]; intros a H; [reflexivity|]. inversion H; subst. cbn [hex_digits fold_left].
  rewrite parseHexChar_ok by assumption. cbn [rbind]. apply IH. assumption.
Qed.

Lemma firstn_exact {A} (l r : list A) n : n = List.length l -> firstn n (l ++ r) = l.
Proof. intros ->. apply firstn_app_len. Qed.
Lemma skipn_exact {A} (l r : list A) n : n = List.length l -> skipn n (l ++ r) = r.
Proof. intros ->. apply skipn_app_len. Qed.

Lemma unescapeUnicode_ok E c ds rest n : n = List.length ds -> Forall (fun d => is_hex d = true) ds ->
  unescapeUnicode E c (ds ++ rest) n = chr E (hex_value ds).
Proof.
  intros -> Hh. unfold unescapeUnicode. rewrite app_length.
  destruct (Nat.leb_spec (List.length ds) (List.length ds + List.length rest)); [|lia].
  rewrite firstn_app_len, hex_digits_ok by exact Hh. reflexivity.
Qed.

(** One escape element. *)
Lemma unescape_one_simple E c rest : In c simple_escape_chars ->
  match elem_value (ESimple c) with
  | Some v => unescape_one E c rest = Ok (v, O)
  | None => exists e, unescape_one E c rest = Raise e
  end.
Proof.
  cbn. intros H.
  repeat (destruct H as [<-|H]; [vm_compute; first [reflexivity|eexists; reflexivity]|]). destruct H.
Qed.

Lemma chr_cases E n : (if (n <=? 1114111)%N then chr E n = Ok [n] else exists e, chr E n = Raise e).
Proof. unfold chr. destruct (n <=? 1114111)%N; [reflexivity|]. destruct (_ || _); eauto. Qed.

Lemma unescape_one_hex E k ds rest : hex_len k = Some (List.length ds) -> Forall (fun d => is_hex d = true) ds ->
  match elem_value (EHex k ds) with
  | Some v => unescape_one E k (ds ++ rest) = Ok (v, List.length ds)
  | None => exists e, unescape_one E k (ds ++ rest) = Raise e
  end.
Proof.
  intros Hk Hh. pose proof (chr_cases E (hex_value ds)) as Hc. unfold hex_len in Hk. cbn [elem_value].
  destruct (N.eqb_spec k 120) as [->|]; [|destruct (N.eqb_spec k 117) as [->|]; [|destruct (N.eqb_spec k 85) as [->|]; [|discriminate]]];
  injection Hk as Hk.
  - change (unescape_one E 120 (ds ++ rest)) with (rmap (fun s : pystr => (s, 2%nat)) (unescapeUnicode E 120 (ds ++ rest) 2)).
    rewrite (unescapeUnicode_ok E _ _ _ _ Hk Hh), <- Hk. destruct (hex_value ds <=? 1114111)%N; [rewrite Hc; reflexivity|].
    destruct Hc as (e & ->). eexists; reflexivity.
  - change (unescape_one E 117 (ds ++ rest)) with (rmap (fun s : pystr => (s, 4%nat)) (unescapeUnicode E 117 (ds ++ rest) 4)).
    rewrite (unescapeUnicode_ok E _ _ _ _ Hk Hh), <- Hk. destruct (hex_value ds <=? 1114111)%N; [rewrite Hc; reflexivity|].
    destruct Hc as (e & ->). eexists; reflexivity.
  - change (unescape_one E 85 (ds ++ rest)) with (rmap (fun s : pystr => (s, 8%nat)) (unescapeUnicode E 85 (ds ++ rest) 8)).
    rewrite (unescapeUnicode_ok E _ _ _ _ Hk Hh), <- Hk. destruct (hex_value ds <=? 1114111)%N; [rewrite Hc; reflexivity|].
    destruct Hc as (e & ->). eexists; reflexivity.
Qed.

Lemma unescape_loop_ok E q es : Forall (elem_ok q) es -> forall fuel, (List.length (flat_map elem_text es) <= fuel)%nat ->
  match lit_value es with
  | Some v => unescape_loop E fuel (flat_map elem_text es) = Ok v
  | None => exists e, unescape_loop E fuel (flat_map elem_text es) = Raise e
  end.
Proof.
  induction 1 as [|e es He _ IH]; intros fuel Hf.
  - cbn. destruct fuel; reflexivity.
  - cbn [flat_map] in Hf |- *. rewrite app_length in Hf.
    destruct fuel as [|fuel]; [destruct e; cbn in Hf; lia|].
    destruct e as [c|c|k ds]; cbn [elem_text app List.length] in Hf |- *; cbn [unescape_loop lit_value].
    + destruct He as (_ & Hc & _). rewrite (proj2 (N.eqb_neq c 92) Hc). cbn [elem_value].
      specialize (IH fuel ltac:(lia)). destruct (lit_value es) as [v|].
      * rewrite IH. reflexivity.
      * destruct IH as (e & ->). eexists; reflexivity.
    + rewrite N.eqb_refl.
      pose proof (unescape_one_simple E c (flat_map elem_text es) He) as H1.
      specialize (IH fuel ltac:(lia)).
      destruct (elem_value (ESimple c)) as [a|].
      * rewrite H1. cbn [rbind skipn]. destruct (lit_value es) as [v|].
        { rewrite IH. reflexivity. }
        { destruct IH as (e & ->). eexists; reflexivity. }
      * destruct H1 as (e & ->). eexists; reflexivity.
    + rewrite N.eqb_refl. destruct He as [Hk Hh].
      pose proof (unescape_one_hex E k ds (flat_map elem_text es) Hk Hh) as H1.
      specialize (IH fuel ltac:(lia)).
      destruct (elem_value (EHex k ds)) as [a|].
      * rewrite H1. cbn [rbind]. rewrite skipn_app_len. destruct (lit_value es) as [v|].
        { rewrite IH. reflexivity. }
        { destruct IH as (e & ->). eexists; reflexivity. }
      * destruct H1 as (e & ->). eexists; reflexivity.
Qed.

Lemma no_backslash_value q es : Forall (elem_ok q) es -> char_in 92 (flat_map elem_text es) = false ->
  lit_value es = Some (flat_map elem_text es).
Proof.
  induction 1 as [|e es He _ IH]; intros Hc; [reflexivity|].
  unfold char_in in *. cbn [flat_map] in Hc |- *. rewrite existsb_app in Hc. apply orb_false_iff in Hc. destruct Hc as [Hc1 Hc2].
  destruct e as [c|c|k ds]; [|cbn in Hc1; discriminate|cbn in Hc1; discriminate].
  cbn [lit_value elem_value elem_text app]. rewrite (IH Hc2). reflexivity.
Qed.

Lemma strip_lit q es : (q = 34 \/ q = 39)%N -> stripQuotes (lit_text q es) = Ok (flat_map elem_text es).
Proof.
  intros Hq. unfold stripQuotes, lit_text.
  assert (He : endswith_char q (q :: flat_map elem_text es ++ [q]) = true).
  { unfold endswith_char. rewrite app_comm_cons, rev_app_distr. cbn [rev app]. apply N.eqb_refl. }
  assert (Hs : strip_ends (q :: flat_map elem_text es ++ [q]) = flat_map elem_text es).
  { unfold strip_ends. cbn [tl]. apply removelast_last. }
  rewrite Hs. destruct Hq as [-> | ->]; cbn [startswith N.eqb]; rewrite He; reflexivity.
Qed.

Lemma regexp_value_spec E C w : is_literal w ->
  (exists v, literal_means w v /\ regexp_value E C w = Ok (normalised E C v)) \/
  (~ decodable w /\ exists e, regexp_value E C w = Raise e).
Proof.
  intros (q & es & Hq & Hes & ->). unfold regexp_value. rewrite (strip_lit _ _ Hq). cbn [rbind].
  assert (Hval : match lit_value es with
      | Some v => (if char_in 92 (flat_map elem_text es) then unescapeString E (flat_map elem_text es) else @Ok pystr (flat_map elem_text es)) = Ok v
      | None => exists e, (if char_in 92 (flat_map elem_text es) then unescapeString E (flat_map elem_text es) else @Ok pystr (flat_map elem_text es)) = Raise e
      end).
  { destruct (char_in 92 (flat_map elem_text es)) eqn:Ec.
    - apply (unescape_loop_ok E _ _ Hes). auto.
    - rewrite (no_backslash_value _ _ Hes Ec). reflexivity. }
  destruct (lit_value es) as [v|] eqn:Ev.
  - left. exists v. split; [exists q, es; auto|]. rewrite Hval. reflexivity.
  - right. split.
    + intros (v & q' & es' & Hq' & Hes' & Heq & Hv). unfold lit_text in Heq. injection Heq as -> Heq.
      apply (lit_body_inj q' es es' [] []) in Heq; auto. destruct Heq as [-> _]. congruence.
    + destruct Hval as (e & ->). eexists; reflexivity.
Qed.

Lemma literal_means_det w v v' : literal_means w v -> literal_means w v' -> v = v'.
Proof.
  intros (q & es & Hq & Hes & -> & Hv) (q' & es' & Hq' & Hes' & Heq & Hv'). unfold lit_text in Heq. injection Heq as -> Heq.
  apply (lit_body_inj q' es es' [] []) in Heq; auto. destruct Heq as [-> _]. congruence.
Qed.

(** ** Flags *)
Lemma flag_in_add f g S : flag_in f (flag_add g S) = true <-> f = g \/ flag_in f S = true.
Proof. destruct f, g; cbn; intuition (try discriminate; auto). Qed.

Lemma flag_loop_ok w : forall S, Forall is_flag_char w ->
  exists S', flag_loop w S = Ok S' /\
    forall f, flag_in f S' = true <-> flag_in f S = true \/ exists c, In c w /\ flag_meaning c = Some f.
Proof.
  induction w as [|c w IH]; intros S Hw.
  - exists S. split; [reflexivity|]. intros f. split; [auto|]. intros [H|(c & [] & _)]. exact H.
  - inversion Hw as [|? ? Hc Hw']; subst.
    assert (Hstep : exists g, flag_meaning c = Some g /\ flag_loop (c :: w) S = flag_loop w (flag_add g S)).
    { unfold is_flag_char in Hc. cbn in Hc.
      repeat (destruct Hc as [<-|Hc]; [eexists; split; reflexivity|]). destruct Hc. }
    destruct Hstep as (g & Hg & ->). destruct (IH (flag_add g S) Hw') as (S' & HS' & Hin).
    exists S'. split; [exact HS'|]. intros f. rewrite Hin, flag_in_add. split.
    + intros [[->|H]|(c' & Hc' & H)]; [right; exists c; split; [left; reflexivity|exact Hg]|auto|right; exists c'; split; [right; exact Hc'|exact H]].
    + intros [H|(c' & [<-|Hc'] & H)]; [auto|left; left; congruence|right; eauto].
Qed.

Lemma flags_denote_det w S S' : flags_denote w S -> flags_denote w S' -> S = S'.
Proof.
  intros H H'. assert (forall f, flag_in f S = flag_in f S') as Heq.
  { intros f. specialize (H f). specialize (H' f). destruct (flag_in f S), (flag_in f S'); try reflexivity; exfalso; intuition discriminate. }
  pose proof (Heq CASE_INSENSITIVE). pose proof (Heq CASE_SENSITIVE). pose proof (Heq LITERAL_MATCHING). pose proof (Heq IGNORE_DIACRITICS).
  destruct S, S'; cbn in *; congruence.
Qed.

Lemma regexp_flags_spec w : Forall is_flag_char w ->
  (exists S, flags_denote w S /\ consistent S /\ regexp_flags w = Ok S) \/
  (~ flags_ok w /\ exists e, regexp_flags w = Raise e).
Proof.
  intros Hw. unfold regexp_flags. destruct (flag_loop_ok w no_flags Hw) as (S & -> & Hin). cbn [rbind].
  assert (Hd : flags_denote w S).
  { intros f. rewrite Hin. split; [|auto]. intros [H|H]; [|exact H]. destruct f; discriminate. }
  assert (Hno : ~ consistent S -> ~ flags_ok w).
  { intros Hn (S' & Hd' & Hc). rewrite (flags_denote_det _ _ _ Hd Hd') in Hn. contradiction. }
  destruct (f_cs S && f_ci S) eqn:E1.
  - right. split; [|eexists; reflexivity]. apply Hno. intros [Hc _]. apply Hc. cbn. apply andb_true_iff in E1. tauto.
  - destruct (f_lit S && (f_cs S || f_ci S || f_dia S)) eqn:E2.
    + right. split; [|eexists; reflexivity]. apply Hno. intros [_ Hc]. apply andb_true_iff in E2. destruct E2 as [El E2].
      specialize (Hc El). rewrite !orb_true_iff in E2. destruct E2 as [[E2|E2]|E2].
      * specialize (Hc CASE_SENSITIVE E2). discriminate.
      * specialize (Hc CASE_INSENSITIVE E2). discriminate.
      * specialize (Hc IGNORE_DIACRITICS E2). discriminate.
    + left. exists S. split; [exact Hd|]. split; [|reflexivity]. split.
      * cbn. intros [H1 H2]. rewrite H1, H2 in E1. discriminate.
      * cbn. intros Hl f Hf. rewrite Hl in E2. cbn in E2. rewrite !orb_false_iff in E2. destruct E2 as [[E2 E3] E4].
        destruct f; cbn in Hf; congruence.
Qed.

(** ** Integers and quantifiers *)
Lemma parseInt_ok E w : w <> [] -> Forall is_digit_char w ->
  (int_ok E w /\ parseInt E w = Ok (dec_value w)) \/ (~ int_ok E w /\ exists e, parseInt E w = Raise e).
Proof.
  intros Hne Hd. unfold parseInt, int_ok.
  assert (Hf : match w with [] => false | _ :: _ => forallb is_digit w end = true).
  { destruct w; [congruence|]. apply forallb_forall. intros x Hx. rewrite Forall_forall in Hd. apply Hd in Hx.
    unfold is_digit_char in Hx. unfold is_digit. lia. }
  rewrite Hf. cbn [andb]. destruct ((env_max_digits E =? 0) || (zlen w <=? env_max_digits E)) eqn:Eb.
  - left. split; [lia|reflexivity].
  - right. split; [lia|eexists; reflexivity].
Qed.

(** Shapes of quantifier trees. *)
Inductive quant_shape : list token -> Prop :=
| qs_plus t : t_type t = Q_ONE_OR_MORE -> quant_shape [t]
| qs_star t : t_type t = Q_ZERO_OR_MORE -> quant_shape [t]
| qs_opt t : t_type t = Q_ZERO_OR_ONE -> quant_shape [t]
| qs_exact l i r : t_type l = L_CURLY_BRACKET -> t_type i = INTEGER -> t_type r = R_CURLY_BRACKET -> quant_shape [l; i; r]
| qs_min l i c r : t_type l = L_CURLY_BRACKET -> t_type i = INTEGER -> t_type c = Q_COMMA -> t_type r = R_CURLY_BRACKET ->
    quant_shape [l; i; c; r]
| qs_max l c i r : t_type l = L_CURLY_BRACKET -> t_type c = Q_COMMA -> t_type i = INTEGER -> t_type r = R_CURLY_BRACKET ->
    quant_shape [l; c; i; r]
| qs_range l i c j r : t_type l = L_CURLY_BRACKET -> t_type i = INTEGER -> t_type c = Q_COMMA -> t_type j = INTEGER ->
    t_type r = R_CURLY_BRACKET -> quant_shape [l; i; c; j; r].

Ltac inv_derives :=
  repeat match goal with
  | H : derives (Sq _ _) _ |- _ => inversion H; clear H; subst
  | H : derives (Tk _) _ |- _ => inversion H; clear H; subst
  | H : derives (Op _) _ |- _ => inversion H; clear H; subst
  | H : derives (Al _ _) _ |- _ => inversion H; clear H; subst
  | H : derives (NT _) _ |- _ => inversion H; clear H; subst
  end.
Ltac in1 := repeat match goal with
  | H : In ?x [?y] |- _ => let E := fresh "Ht" in assert (E : x = y) by (destruct H as [<-|[]]; reflexivity); clear H
  end.

Ltac unleaf l := match l with
  | [] => constr:(@nil token)
  | Leaf ?t :: ?r => let r' := unleaf r in constr:(t :: r')
  end.

Lemma quantifier_shape ch : derives (body quantifier) ch -> exists ts, ch = map Leaf ts /\ quant_shape ts.
Proof.
  intros H. cbn [body] in H. inv_derives; in1; cbn [app];
  match goal with |- exists ts, ?l = _ /\ _ => let l' := unleaf l in exists l' end;
  (split; [reflexivity|]);
  first [apply qs_plus; assumption|apply qs_star; assumption|apply qs_opt; assumption|apply qs_exact; assumption
        |apply qs_max; assumption|apply qs_range; assumption|apply qs_min; assumption].
Qed.

(** The part of the acceptance condition that concerns quantifiers. *)
Definition ints_ok (E : penv) (ts : list token) : Prop :=
  (forall t, In t ts -> t_type t = INTEGER -> int_ok E (t_text t)) /\
  (forall pre a c b post, ts = pre ++ a :: c :: b :: post ->
     t_type a = INTEGER -> t_type c = Q_COMMA -> t_type b = INTEGER ->
     dec_value (t_text a) <= dec_value (t_text b)).

Lemma get_text_leaf t : get_text (Leaf t) = t_text t.
Proof. unfold get_text. cbn. apply app_nil_r. Qed.

Definition digits_text (t : token) : Prop := t_text t <> [] /\ Forall is_digit_char (t_text t).

Ltac types := repeat match goal with H : t_type ?t = _ |- context [t_type ?t] => rewrite H end.

Lemma dec_value_nonneg w : Forall is_digit_char w -> 0 <= dec_value w.
Proof.
  unfold dec_value. assert (H : forall a, 0 <= a -> Forall is_digit_char w -> 0 <= fold_left (fun a c => a * 10 + digit_val c) w a).
  { induction w as [|c w IH]; intros a Ha Hw; [exact Ha|]. inversion Hw; subst. cbn [fold_left]. apply IH; [|assumption].
    unfold digit_val, is_digit_char in *. lia. }
  apply H. lia.
Qed.

(** What [processRepetitionRange] computes on each shape. *)
Definition range_check (r : Z * Z) : res (Z * Z) :=
  let '(mn, mx) := r in
  if negb (mx =? OCCURS_UNBOUNDED) && (mx <? mn) then
    Raise (BuilderError (u "bad qualifier: min > max (" ++ dec mn ++ u " > " ++ dec mx ++ u ")"))
  else Ok (mn, mx).
Ltac conc := repeat match goal with t : token |- _ => destruct t end; cbn [t_type t_text] in *; subst; reflexivity.
Lemma range_exact E l i r : t_type l = L_CURLY_BRACKET -> t_type i = INTEGER -> t_type r = R_CURLY_BRACKET ->
  processRepetitionRange E (map Leaf [l; i; r]) =
  rbind (rmap (fun v => (v, v)) (parseInt E (t_text i))) range_check.
Proof. intros. rewrite <- (app_nil_r (t_text i)). conc. Qed.
Lemma range_min E l i c r : t_type l = L_CURLY_BRACKET -> t_type i = INTEGER -> t_type c = Q_COMMA -> t_type r = R_CURLY_BRACKET ->
  processRepetitionRange E (map Leaf [l; i; c; r]) =
  rbind (rbind (parseInt E (t_text i)) (fun v => Ok (v, OCCURS_UNBOUNDED))) range_check.
Proof. intros. rewrite <- (app_nil_r (t_text i)). conc. Qed.
Lemma range_max E l c i r : t_type l = L_CURLY_BRACKET -> t_type c = Q_COMMA -> t_type i = INTEGER -> t_type r = R_CURLY_BRACKET ->
  processRepetitionRange E (map Leaf [l; c; i; r]) =
  rbind (rbind (parseInt E (t_text i)) (fun v => Ok (0, v))) range_check.
Proof. intros. rewrite <- (app_nil_r (t_text i)). conc. Qed.
Lemma range_range E l i c j r : t_type l = L_CURLY_BRACKET -> t_type i = INTEGER -> t_type c = Q_COMMA ->
  t_type j = INTEGER -> t_type r = R_CURLY_BRACKET ->
  processRepetitionRange E (map Leaf [l; i; c; j; r]) =
  rbind (rbind (parseInt E (t_text i)) (fun mn => rbind (parseInt E (t_text j)) (fun mx => Ok (mn, mx)))) range_check.
Proof. intros. rewrite <- (app_nil_r (t_text i)), <- (app_nil_r (t_text j)). conc. Qed.

Lemma repetition_spec E ts : quant_shape ts ->
  (forall t, In t ts -> t_type t = INTEGER -> digits_text t) ->
  (exists mn mx, quantified ts mn mx /\ ints_ok E ts /\ processRepetition E (map Leaf ts) = Ok (mn, mx)) \/
  (~ ints_ok E ts /\ exists e, processRepetition E (map Leaf ts) = Raise e).
Proof.
  intros Hs Hd.
  assert (Htriv : forall ts', (forall t, In t ts' -> t_type t <> INTEGER) -> ints_ok E ts').
  { intros ts' H. split.
    - intros t Ht Hi. exfalso. eapply H; eauto.
    - intros pre a c b post -> Ha. exfalso. apply (H a); [apply in_or_app; right; left; reflexivity|exact Ha]. }
  destruct Hs as [t Ht|t Ht|t Ht|l i r Hl Hi Hr|l i c r Hl Hi Hc Hr|l c i r Hl Hc Hi Hr|l i c j r Hl Hi Hc Hj Hr];
    unfold processRepetition, has_token, find_token; cbn [map find]; types; cbn [ttype_eqb ttype_eq_dec ttype_rec ttype_rect];
    unfold ttype_eqb; cbn.
  - left. exists 1, OCCURS_UNBOUNDED. split; [constructor; exact Ht|]. split; [|reflexivity].
    apply Htriv. intros t' [<-|[]]. congruence.
  - left. exists 0, OCCURS_UNBOUNDED. split; [constructor; exact Ht|]. split; [|reflexivity].
    apply Htriv. intros t' [<-|[]]. congruence.
  - left. exists 0, 1. split; [constructor; exact Ht|]. split; [|reflexivity].
    apply Htriv. intros t' [<-|[]]. congruence.
  - pose proof (range_exact E l i r) as HR; cbn [map] in HR; rewrite HR by assumption; clear HR.
    destruct (Hd i ltac:(cbn; tauto) Hi) as [Hne Hf].
    destruct (parseInt_ok E (t_text i) Hne Hf) as [[Hok ->]|[Hno (e & ->)]]; cbn.
    + left. exists (dec_value (t_text i)), (dec_value (t_text i)).
      split; [constructor; unfold is_tok, int_tok; auto|]. split.
      * split.
        { intros t [<-|[<-|[<-|[]]]] H; first [assumption|congruence]. }
        { intros pre a c b post H Ha Hc Hb. exfalso.
          destruct pre as [|? [|? [|? pre]]]; cbn in H; injection H; intros; subst; first [congruence|destruct pre; discriminate|idtac]. }
      * destruct (Z.ltb_spec (dec_value (t_text i)) (dec_value (t_text i))); [lia|]. rewrite andb_false_r. reflexivity.
    + right. split; [|eexists; reflexivity]. intros [H _]. apply Hno. apply H; [cbn; tauto|exact Hi].
  - pose proof (range_min E l i c r) as HR; cbn [map] in HR; rewrite HR by assumption; clear HR.
    destruct (Hd i ltac:(cbn; tauto) Hi) as [Hne Hf].
    destruct (parseInt_ok E (t_text i) Hne Hf) as [[Hok ->]|[Hno (e & ->)]]; cbn.
    + left. exists (dec_value (t_text i)), OCCURS_UNBOUNDED.
      split; [constructor; unfold is_tok, int_tok; auto|]. split; [|reflexivity]. split.
      { intros t [<-|[<-|[<-|[<-|[]]]]] H; first [assumption|congruence]. }
      { intros pre a c' b post H Ha Hc' Hb. exfalso.
        destruct pre as [|? [|? [|? [|? pre]]]]; cbn in H; injection H; intros; subst; first [congruence|destruct pre; discriminate|idtac]. }
    + right. split; [|eexists; reflexivity]. intros [H _]. apply Hno. apply H; [cbn; tauto|exact Hi].
  - pose proof (range_max E l c i r) as HR; cbn [map] in HR; rewrite HR by assumption; clear HR.
    destruct (Hd i ltac:(cbn; tauto) Hi) as [Hne Hf].
    destruct (parseInt_ok E (t_text i) Hne Hf) as [[Hok ->]|[Hno (e & ->)]]; cbn.
    + left. exists 0, (dec_value (t_text i)).
      split; [constructor; unfold is_tok, int_tok; auto|]. split.
      * split.
        { intros t [<-|[<-|[<-|[<-|[]]]]] H; first [assumption|congruence]. }
        { intros pre a c' b post H Ha Hc' Hb. exfalso.
          destruct pre as [|? [|? [|? [|? pre]]]]; cbn in H; injection H; intros; subst; first [congruence|destruct pre; discriminate|idtac]. }
      * pose proof (dec_value_nonneg _ Hf). destruct (Z.ltb_spec (dec_value (t_text i)) 0); [lia|]. rewrite andb_false_r. reflexivity.
    + right. split; [|eexists; reflexivity]. intros [H _]. apply Hno. apply H; [cbn; tauto|exact Hi].
  - pose proof (range_range E l i c j r) as HR; cbn [map] in HR; rewrite HR by assumption; clear HR.
    destruct (Hd i ltac:(cbn; tauto) Hi) as [Hne Hf]. destruct (Hd j ltac:(cbn; tauto) Hj) as [Hne' Hf'].
    destruct (parseInt_ok E (t_text i) Hne Hf) as [[Hok ->]|[Hno (e & ->)]]; cbn.
    + destruct (parseInt_ok E (t_text j) Hne' Hf') as [[Hok' ->]|[Hno' (e & ->)]]; cbn.
      * pose proof (dec_value_nonneg _ Hf'). unfold OCCURS_UNBOUNDED.
        destruct (Z.eqb_spec (dec_value (t_text j)) (-1)); [lia|]. cbn [negb andb].
        destruct (Z.ltb_spec (dec_value (t_text j)) (dec_value (t_text i))).
        { right. split; [|eexists; reflexivity]. intros [_ H2].
          specialize (H2 [l] i c j [r] eq_refl Hi Hc Hj). lia. }
        { left. exists (dec_value (t_text i)), (dec_value (t_text j)).
          split; [constructor; unfold is_tok, int_tok; auto|]. split; [|reflexivity]. split.
          - intros t [<-|[<-|[<-|[<-|[<-|[]]]]]] Ht; first [assumption|congruence].
          - intros pre a c' b post H' Ha Hc' Hb.
            destruct pre as [|? [|? [|? [|? [|? pre]]]]]; cbn in H'; injection H'; intros; subst; first [congruence|destruct pre; discriminate|idtac]. }
      * right. split; [|eexists; reflexivity]. intros [H _]. apply Hno'. apply H; [cbn; tauto|exact Hj].
    + right. split; [|eexists; reflexivity]. intros [H _]. apply Hno. apply H; [cbn; tauto|exact Hi].
Qed.
