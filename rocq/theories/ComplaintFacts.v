(** The exception raised by the tree builder is about the first unusable token. *)
From Coq Require Import String.
From Verif Require Import Base Regex LexRules Lexer Grammar Antlr Ast Builder RegexFacts LexSpec LitSpec LexFacts
  LexRuleFacts LexThms GramSpec GramFacts ValueSpec ValueFacts SpellSpec BuilderFacts BuilderRules ComplaintSpec WriteFacts Numerals.
From Coq Require Import ZifyBool ZifyN.
Local Open Scope Z_scope.

(** The text that [QueryParser.parse] makes of an exception. *)
Definition exn_msg (e : exn) : pystr :=
  match e with BuilderError m => m | QueryParserError m => m | _ => u "an unexpected exception occured while parsing" end.

(** ** Literals *)
Lemma simple_complaint E c rest : In c simple_escape_chars -> elem_value (ESimple c) = None ->
  exists e, unescape_one E c rest = Raise e /\ element_complaint E (ESimple c) (exn_msg e).
Proof.
  intros Hin Hv. exists (BuilderError (u "invalid escape sequence: \" ++ [c])). split; [|constructor; exact Hv].
  revert Hv. cbn in Hin. repeat (destruct Hin as [<-|Hin]; [vm_compute; first [discriminate|reflexivity]|]). destruct Hin.
Qed.
Lemma chr_complaint E k ds : (1114111 < hex_value ds)%N ->
  exists e, chr E (hex_value ds) = Raise e /\ element_complaint E (EHex k ds) (exn_msg e).
Proof.
  intros H. unfold chr. destruct (N.leb_spec (hex_value ds) 1114111); [lia|].
  destruct ((hex_value ds <? 2147483648)%N || negb (env_chr_overflows E)) eqn:Eb.
  - eexists. split; [reflexivity|]. cbn [exn_msg]. apply ec_codepoint; [exact H| |apply written_hex].
    change (2 ^ 31)%N with 2147483648%N. apply orb_true_iff in Eb. destruct Eb as [Eb|Eb]; [left; lia|right; apply negb_true_iff; exact Eb].
  - eexists. split; [reflexivity|]. cbn [exn_msg]. apply orb_false_iff in Eb. destruct Eb as [Eb1 Eb2].
    apply ec_huge; [change (2 ^ 31)%N with 2147483648%N; lia|apply negb_false_iff; exact Eb2].
Qed.
Lemma hex_complaint E k ds rest : hex_len k = Some (List.length ds) -> Forall (fun d => is_hex d = true) ds ->
  elem_value (EHex k ds) = None -> exists e, unescape_one E k (ds ++ rest) = Raise e /\ element_complaint E (EHex k ds) (exn_msg e).
Proof.
  intros Hk Hh Hv. cbn [elem_value] in Hv. destruct (N.leb_spec (hex_value ds) 1114111) as [|Hlt]; [discriminate|].
  destruct (chr_complaint E k ds Hlt) as (e & He & Hc). exists e. split; [|exact Hc]. unfold hex_len in Hk.
  destruct (N.eqb_spec k 120) as [->|]; [|destruct (N.eqb_spec k 117) as [->|]; [|destruct (N.eqb_spec k 85) as [->|]; [|discriminate]]];
  injection Hk as Hk.
  - change (unescape_one E 120 (ds ++ rest)) with (rmap (fun s : pystr => (s, 2%nat)) (unescapeUnicode E 120 (ds ++ rest) 2)).
    rewrite (unescapeUnicode_ok E _ _ _ _ Hk Hh), He. reflexivity.
  - change (unescape_one E 117 (ds ++ rest)) with (rmap (fun s : pystr => (s, 4%nat)) (unescapeUnicode E 117 (ds ++ rest) 4)).
    rewrite (unescapeUnicode_ok E _ _ _ _ Hk Hh), He. reflexivity.
  - change (unescape_one E 85 (ds ++ rest)) with (rmap (fun s : pystr => (s, 8%nat)) (unescapeUnicode E 85 (ds ++ rest) 8)).
    rewrite (unescapeUnicode_ok E _ _ _ _ Hk Hh), He. reflexivity.
Qed.
Definition bad_elem (E : penv) (es : list lit_elem) (m : pystr) : Prop :=
  exists es1 x es2, es = es1 ++ x :: es2 /\ (forall e', In e' es1 -> elem_value e' <> None) /\ element_complaint E x m.
Lemma bad_here E x es m : element_complaint E x m -> bad_elem E (x :: es) m.
Proof. intros H. exists [], x, es. split; [reflexivity|]. split; [intros ? []|exact H]. Qed.
Lemma bad_later E x es m : elem_value x <> None -> bad_elem E es m -> bad_elem E (x :: es) m.
Proof.
  intros Hx (es1 & y & es2 & -> & Hg & Hc). exists (x :: es1), y, es2. split; [reflexivity|]. split; [|exact Hc].
  intros e' [<-|Hin]; auto.
Qed.
Lemma loop_complaint E q es : Forall (elem_ok q) es -> forall fuel e, (List.length (flat_map elem_text es) <= fuel)%nat ->
  unescape_loop E fuel (flat_map elem_text es) = Raise e -> bad_elem E es (exn_msg e).
Proof.
  induction 1 as [|x es He _ IH]; intros fuel e Hf Hr.
  - cbn in Hr. destruct fuel; discriminate.
  - cbn [flat_map] in Hf, Hr. rewrite app_length in Hf.
    destruct fuel as [|fuel]; [destruct x; cbn in Hf; lia|].
    destruct x as [c|c|k ds]; cbn [elem_text app List.length] in Hf, Hr; cbn [unescape_loop] in Hr.
    + destruct He as (_ & Hc & _). rewrite (proj2 (N.eqb_neq c 92) Hc) in Hr. apply bad_later; [discriminate|].
      destruct (unescape_loop E fuel (flat_map elem_text es)) as [v|e'] eqn:Hl; [discriminate|]. injection Hr as ->.
      eapply IH; [|exact Hl]. lia.
    + rewrite N.eqb_refl in Hr.
      pose proof (unescape_one_simple E c (flat_map elem_text es) He) as H1.
      destruct (elem_value (ESimple c)) as [a|] eqn:Ev.
      * rewrite H1 in Hr. cbn [rbind skipn] in Hr. apply bad_later; [rewrite Ev; discriminate|].
        destruct (unescape_loop E fuel (flat_map elem_text es)) as [v|e'] eqn:Hl; [discriminate|]. injection Hr as ->.
        eapply IH; [|exact Hl]. lia.
      * destruct (simple_complaint E c (flat_map elem_text es) He Ev) as (e' & He' & Hc). rewrite He' in Hr. injection Hr as ->.
        apply bad_here. exact Hc.
    + rewrite N.eqb_refl in Hr. destruct He as [Hk Hh].
      pose proof (unescape_one_hex E k ds (flat_map elem_text es) Hk Hh) as H1.
      destruct (elem_value (EHex k ds)) as [a|] eqn:Ev.
      * rewrite H1 in Hr. cbn [rbind] in Hr. rewrite skipn_app_len in Hr. apply bad_later; [rewrite Ev; discriminate|].
        destruct (unescape_loop E fuel (flat_map elem_text es)) as [v|e'] eqn:Hl; [discriminate|]. injection Hr as ->.
        eapply IH; [|exact Hl]. lia.
      * destruct (hex_complaint E k ds (flat_map elem_text es) Hk Hh Ev) as (e' & He' & Hc). rewrite He' in Hr. injection Hr as ->.
        apply bad_here. exact Hc.
Qed.
Lemma value_complaint E C t e pre : t_type t = REGEXP -> is_literal (t_text t) -> regexp_value E C (t_text t) = Raise e ->
  complaint E (pre ++ [t]) (exn_msg e).
Proof.
  intros Ht (q & es & Hq & Hes & Hw) Hr. rewrite Hw in Hr. unfold regexp_value in Hr. rewrite (strip_lit _ _ Hq) in Hr. cbn [rbind] in Hr.
  destruct (char_in 92 (flat_map elem_text es)) eqn:Ec; [|discriminate].
  destruct (unescapeString E (flat_map elem_text es)) as [v|e'] eqn:Hl; [discriminate|]. injection Hr as ->.
  destruct (loop_complaint E q es Hes _ e (Nat.le_refl _) Hl) as (es1 & x & es2 & -> & Hg & Hc).
  eapply c_literal; eassumption.
Qed.

(** ** Flags *)
Lemma flags_complaint E s t e pre : t_type s = FWD_SLASH -> t_type t = REGEXP_FLAGS -> Forall is_flag_char (t_text t) ->
  regexp_flags (t_text t) = Raise e -> complaint E (pre ++ [s; t]) (exn_msg e).
Proof.
  intros Hs Ht Hw Hr. unfold regexp_flags in Hr. destruct (flag_loop_ok (t_text t) no_flags Hw) as (S & HS & Hin). rewrite HS in Hr. cbn [rbind] in Hr.
  assert (Hd : forall f, flag_in f S = true <-> has_flag (t_text t) f).
  { intros f. rewrite Hin. unfold has_flag. split; [|auto]. intros [H|H]; [destruct f; discriminate|exact H]. }
  destruct (f_cs S && f_ci S) eqn:E1.
  - injection Hr as <-. cbn [exn_msg]. apply andb_true_iff in E1. apply c_case; try assumption; apply Hd; cbn; tauto.
  - destruct (f_lit S && (f_cs S || f_ci S || f_dia S)) eqn:E2; [|discriminate]. injection Hr as <-. cbn [exn_msg].
    apply andb_true_iff in E2. destruct E2 as [El E2].
    assert (Hn : ~ (has_flag (t_text t) CASE_SENSITIVE /\ has_flag (t_text t) CASE_INSENSITIVE)).
    { rewrite <- !Hd. cbn. intros [A B]. rewrite A, B in E1. discriminate. }
    rewrite !orb_true_iff in E2. destruct E2 as [[E2|E2]|E2];
      [apply (c_lit E pre s t CASE_SENSITIVE)|apply (c_lit E pre s t CASE_INSENSITIVE)|apply (c_lit E pre s t IGNORE_DIACRITICS)];
      try assumption; try (apply Hd; assumption); discriminate.
Qed.

(** ** Integers and ranges *)
Lemma int_complaint E t e pre : t_type t = INTEGER -> digits_text t -> parseInt E (t_text t) = Raise e ->
  complaint E (pre ++ [t]) (exn_msg e).
Proof.
  intros Ht [Hne Hd] Hr. destruct (parseInt_ok E (t_text t) Hne Hd) as [[_ Hok]|[Hno _]]; [congruence|].
  unfold parseInt in Hr. destruct (_ && _) in Hr; [discriminate|]. injection Hr as <-. cbn [exn_msg]. apply c_integer; assumption.
Qed.

(** ** First complaints in a list of tokens *)
Section First.
  Variable E : penv.
  Notation complaint := (complaint E).
  Notation no_complaint := (no_complaint E).
  Notation first_complaint := (first_complaint E).

  Lemma complaint_ne l m : complaint l m -> l <> [].
  Proof. intros H Hl. destruct H; destruct pre; discriminate. Qed.
  Lemma snoc_inj {A} (x y : list A) a b : x ++ [a] = y ++ [b] -> x = y /\ a = b.
  Proof. apply app_inj_tail. Qed.
  (** A complaint needs no context beyond a good end. *)
  Lemma complaint_drop xs ys m : good_end xs -> ys <> [] -> complaint (xs ++ ys) m -> complaint ys m.
  Proof.
    intros (x0 & k & -> & Hk) Hys H. remember ((x0 ++ [k]) ++ ys) as l eqn:Hl.
    destruct (exists_last Hys) as (y1 & z & ->). clear Hys. rewrite app_assoc in Hl.
    destruct H as [pre t q es1 e es2 m Ht Hq Hok Htx Hg Hc|pre s t Hs Ht Ha Hb|pre s t f Hs Ht Hn Ha Hb Hf|pre t Ht Hi
      |pre a c b x y dx dy Ha Hc Hb Hia Hib Hx Hy Hlt Hdx Hdy].
    - apply snoc_inj in Hl. destruct Hl as [_ ->]. eapply c_literal; eassumption.
    - change [s; t] with ([s] ++ [t]) in Hl. rewrite app_assoc in Hl. apply snoc_inj in Hl. destruct Hl as [Hl ->].
      destruct y1 as [|y0 y1' _] using rev_ind.
      + rewrite app_nil_r in Hl. apply snoc_inj in Hl. destruct Hl as [_ ->]. exfalso. apply Hk. rewrite Hs. cbn; tauto.
      + rewrite app_assoc in Hl. apply snoc_inj in Hl. destruct Hl as [_ ->]. rewrite <- app_assoc. apply c_case; assumption.
    - change [s; t] with ([s] ++ [t]) in Hl. rewrite app_assoc in Hl. apply snoc_inj in Hl. destruct Hl as [Hl ->].
      destruct y1 as [|y0 y1' _] using rev_ind.
      + rewrite app_nil_r in Hl. apply snoc_inj in Hl. destruct Hl as [_ ->]. exfalso. apply Hk. rewrite Hs. cbn; tauto.
      + rewrite app_assoc in Hl. apply snoc_inj in Hl. destruct Hl as [_ ->]. rewrite <- app_assoc. apply (c_lit E _ y0 z f); assumption.
    - apply snoc_inj in Hl. destruct Hl as [_ ->]. apply c_integer; assumption.
    - change [a; c; b] with ([a] ++ [c] ++ [b]) in Hl. rewrite !app_assoc in Hl. apply snoc_inj in Hl. destruct Hl as [Hl ->].
      destruct y1 as [|y0 y1' _] using rev_ind.
      + rewrite app_nil_r in Hl. apply snoc_inj in Hl. destruct Hl as [_ ->]. exfalso. apply Hk. rewrite Hc. cbn; tauto.
      + rewrite app_assoc in Hl. apply snoc_inj in Hl. destruct Hl as [Hl ->].
        destruct y1' as [|y2 y3 _] using rev_ind.
        * rewrite app_nil_r in Hl. apply snoc_inj in Hl. destruct Hl as [_ ->]. exfalso. apply Hk. rewrite Ha. cbn; tauto.
        * rewrite app_assoc in Hl. apply snoc_inj in Hl. destruct Hl as [_ ->]. rewrite <- !app_assoc. eapply c_range; eassumption.
  Qed.
  Lemma complaint_more xs ys m : complaint ys m -> complaint (xs ++ ys) m.
  Proof.
    intros H. destruct H; rewrite app_assoc; [eapply c_literal; eassumption|apply c_case; assumption|apply (c_lit E _ s t f); assumption|apply c_integer; assumption|eapply c_range; eassumption].
  Qed.

  Lemma no_complaint_nil : no_complaint [].
  Proof. intros l r m H Hc. symmetry in H. apply app_eq_nil in H. destruct H as [-> _]. exact (complaint_ne _ _ Hc eq_refl). Qed.
  Lemma app_split {A} (xs ys l r : list A) : xs ++ ys = l ++ r ->
    (exists r', xs = l ++ r') \/ (exists l', l' <> [] /\ l = xs ++ l' /\ ys = l' ++ r).
  Proof.
    revert l. induction xs as [|x xs IH]; intros l H.
    - destruct l as [|y l]; [left; exists []; reflexivity|right]. exists (y :: l). split; [discriminate|auto].
    - destruct l as [|y l]; [left; exists (x :: xs); reflexivity|]. cbn in H. injection H as -> H.
      destruct (IH l H) as [(r' & ->)|(l' & Hne & -> & ->)]; [left; exists r'; reflexivity|right; exists l'; auto].
  Qed.
  Lemma no_complaint_app xs ys : good_end xs -> no_complaint xs -> no_complaint ys -> no_complaint (xs ++ ys).
  Proof.
    intros Hg Hx Hy l r m H Hc. destruct (app_split _ _ _ _ H) as [(r' & Hr)|(l' & Hne & -> & Hr)].
    - exact (Hx l r' m Hr Hc).
    - exact (Hy l' r m Hr (complaint_drop xs l' m Hg Hne Hc)).
  Qed.
  Lemma first_l xs ys m : first_complaint xs m -> first_complaint (xs ++ ys) m.
  Proof. intros (l & t & r & -> & Hn & Hc). exists l, t, (r ++ ys). rewrite <- app_assoc. auto. Qed.
  Lemma first_r xs ys m : good_end xs -> no_complaint xs -> first_complaint ys m -> first_complaint (xs ++ ys) m.
  Proof.
    intros Hg Hx (l & t & r & -> & Hn & Hc). exists (xs ++ l), t, r. split; [rewrite <- app_assoc; reflexivity|]. split.
    - apply no_complaint_app; assumption.
    - rewrite <- app_assoc. apply complaint_more. exact Hc.
  Qed.
  Lemma first_not ts m : first_complaint ts m -> ~ no_complaint ts.
  Proof. intros (l & t & r & -> & _ & Hc) H. apply (H (l ++ [t]) r m); [rewrite <- app_assoc; reflexivity|exact Hc]. Qed.

  (** Acceptable texts give no reason to complain. *)
  Lemma element_undecodable e m : element_complaint E e m -> elem_value e = None.
  Proof.
    destruct 1 as [c H|k ds h H _ _|k ds H _]; [exact H|..]; cbn [elem_value]; destruct (N.leb_spec (hex_value ds) 1114111); try reflexivity;
      change (2 ^ 31)%N with 2147483648%N in H; lia.
  Qed.
  Lemma lit_value_none es1 e es2 : elem_value e = None -> lit_value (es1 ++ e :: es2) = None.
  Proof. intros He. induction es1 as [|x es1 IH]; cbn [app lit_value]; [rewrite He; reflexivity|]. rewrite IH. destruct (elem_value x); reflexivity. Qed.
  Lemma texts_no_complaint ts : Forall tok_ok ts -> texts_ok E ts -> no_complaint ts.
  Proof.
    intros Hok (A & B & D & F) l r m Hts Hc. subst ts.
    destruct Hc as [pre t q es1 e es2 m Ht Hq Hes Htx Hg Hc|pre s t Hs Ht Ha Hb|pre s t f Hs Ht Hn Ha Hb Hf|pre t Ht Hi
      |pre a c b x y dx dy Ha Hc Hb Hia Hib Hx Hy Hlt Hdx Hdy].
    - destruct (A t) as (v & q' & es' & Hq' & Hes' & Heq & Hv); [rewrite !in_app_iff; cbn; tauto|exact Ht|].
      rewrite Htx in Heq. unfold lit_text in Heq. injection Heq as -> Heq.
      apply (lit_body_inj q' (es1 ++ e :: es2) es' [] []) in Heq; auto. destruct Heq as [<- _].
      rewrite (lit_value_none es1 e es2 (element_undecodable e m Hc)) in Hv. discriminate.
    - destruct (B pre s t r) as (S & Hd & Hcs & _); [rewrite <- app_assoc; reflexivity|assumption..|]. apply Hcs. split; apply Hd; assumption.
    - destruct (B pre s t r) as (S & Hd & _ & Hcl); [rewrite <- app_assoc; reflexivity|assumption..|]. apply Hf. apply Hcl; apply Hd; assumption.
    - apply Hi. apply D; [rewrite !in_app_iff; cbn; tauto|exact Ht].
    - pose proof (F pre a c b r ltac:(rewrite <- app_assoc; reflexivity) Ha Hc Hb) as Hle.
      assert (Hdig : forall t, In t [a; c; b] -> t_type t = INTEGER -> Forall is_digit_char (t_text t)).
      { intros t Hin Hty. rewrite Forall_forall in Hok. destruct (Hok t) as [Hx' _]; [rewrite !in_app_iff; auto|]. rewrite Hty in Hx'. apply Hx'. discriminate. }
      pose proof (numeral_det _ _ _ _ Hx (numeral_dec _ (Hdig a ltac:(cbn; tauto) Ha))).
      pose proof (numeral_det _ _ _ _ Hy (numeral_dec _ (Hdig b ltac:(cbn; tauto) Hb))).
      pose proof (dec_value_nonneg _ (Hdig a ltac:(cbn; tauto) Ha)). pose proof (dec_value_nonneg _ (Hdig b ltac:(cbn; tauto) Hb)). lia.
  Qed.
  Lemma conds_no_complaint ts : Forall tok_ok ts -> conds E ts -> no_complaint ts.
  Proof. intros Hok Hc. apply texts_no_complaint; [exact Hok|]. apply texts_ok_conds. exact Hc. Qed.
  Lemma no_complaint_one k : ~ In (t_type k) [REGEXP; INTEGER; REGEXP_FLAGS] -> no_complaint [k].
  Proof.
    intros Hk l r m H Hc. destruct l as [|x [|y l]]; [exact (complaint_ne _ _ Hc eq_refl)| |discriminate]. injection H as <- <-.
    remember [k] as l eqn:Hl. destruct Hc as [pre t q es1 e es2 m Ht|pre s t Hs Ht|pre s t f Hs Ht|pre t Ht|pre a c b x y dx dy Ha Hc Hb];
      try (destruct pre as [|? [|? ?]]; discriminate Hl);
      (destruct pre as [|? [|? ?]]; [injection Hl as ->|discriminate Hl..]); apply Hk; rewrite Ht; cbn; tauto.
  Qed.
End First.
