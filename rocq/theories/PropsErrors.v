(** C48, C49: syntax errors. *)
From Coq Require Import String.
From Verif Require Import Base Regex LexRules Lexer Grammar Antlr Ast Builder Parser ModelTests LexSpec LexFacts LexThms
  GramSpec GramFacts TokenSpec ParseSpec ParseFacts PropsLex PropsParse.
Local Open Scope Z_scope.

(** [line] is what stands before a position on its own line, [earlier] the lines before it. *)
Definition on_line (before earlier line : pystr) : Prop :=
  before = earlier ++ line /\ (earlier = [] \/ exists x, earlier = x ++ [10%N]) /\ ~ In 10%N line.

Lemma advance_no_lf : forall s line col, ~ In 10%N s -> advance_pos line col s = (line, col + zlen s).
Proof.
  induction s as [|c s IH]; intros line col H; cbn [advance_pos]; [unfold zlen; cbn; rewrite Z.add_0_r; reflexivity|].
  destruct (N.eqb_spec c 10) as [->|_]; [exfalso; apply H; left; reflexivity|]. rewrite IH by (intros Hx; apply H; right; exact Hx).
  f_equal. unfold zlen. cbn [List.length]. lia.
Qed.
Lemma on_line_exists before : exists earlier line, on_line before earlier line.
Proof.
  induction before as [|c s (e & l & -> & He & Hl)]; [exists [], []; repeat split; auto|].
  destruct He as [->|(x & ->)].
  - destruct (N.eq_dec c 10) as [->|Hc].
    + exists [10%N], l. split; [reflexivity|]. split; [right; exists []; reflexivity|exact Hl].
    + exists [], (c :: l). split; [reflexivity|]. split; [auto|]. intros [H|H]; [congruence|exact (Hl H)].
  - exists (c :: x ++ [10%N]), l. split; [reflexivity|]. split; [right; exists (c :: x); reflexivity|exact Hl].
Qed.
Lemma on_line_col before earlier line : on_line before earlier line -> snd (advance_pos 1 0 before) = zlen line.
Proof.
  intros (-> & He & Hl). rewrite advance_pos_app, (advance_no_lf line _ _ Hl). cbn [snd].
  destruct He as [->|(x & ->)]; [reflexivity|]. rewrite advance_pos_app. cbn. reflexivity.
Qed.

Lemma in_lex_errors q e : In e (lex_errors q) ->
  exists l1 l2, lexemes q = l1 ++ LxErr (le_start e) (le_line e) (le_col e) (le_text e) :: l2.
Proof.
  unfold lex_errors, lx_errors. intros H. apply in_flat_map in H. destruct H as (x & Hx & He).
  destruct x as [t|t|s ln c t]; try destruct He; try contradiction. subst e. apply in_split in Hx. exact Hx.
Qed.

(** The errors of a query: the lexical ones (no fragment), or ones at a token. *)
Lemma error_cases V P q d : env_ok V -> In d (errors_after V P q) ->
  (exists e, In e (lex_errors q) /\ d = syntaxError q (lexer_call e)) \/
  (exists c t, In t (tokens q) /\ lc_token c = Some t /\ d = syntaxError q c).
Proof.
  intros HV Hd. unfold errors_after, parser_parse in Hd. cbn [fst qp_errors] in Hd. unfold syntax_errors in Hd.
  apply in_map_iff in Hd. destruct Hd as (c & <- & Hc). unfold listener_calls in Hc. destruct (in_grammar (tokens q)) eqn:Hg.
  - apply in_map_iff in Hc. destruct Hc as (e & <- & He). left. eauto.
  - destruct (HV q Hg) as [_ H]. destruct (H c Hc) as [(e & He & ->)|(t & Ht & Hct)]; [left; eauto|right; eauto].
Qed.

(** How a message shows unreadable text: line feed, tab and carriage return as escapes, all else as it is. *)
Inductive displayed : pystr -> pystr -> Prop :=
| dp_nil : displayed [] []
| dp_lf s t : displayed s t -> displayed (10%N :: s) (u "\n" ++ t)
| dp_tab s t : displayed s t -> displayed (9%N :: s) (u "\t" ++ t)
| dp_cr s t : displayed s t -> displayed (13%N :: s) (u "\r" ++ t)
| dp_char c s t : ~ In c [9%N; 10%N; 13%N] -> displayed s t -> displayed (c :: s) (c :: t).
Lemma error_display_shows s : displayed s (error_display s).
Proof.
  induction s as [|c s IH]; [constructor|]. unfold error_display in *. cbn [flat_map].
  destruct (N.eqb_spec c 10) as [->|H1]; [apply dp_lf; exact IH|]. destruct (N.eqb_spec c 9) as [->|H2]; [apply dp_tab; exact IH|].
  destruct (N.eqb_spec c 13) as [->|H3]; [apply dp_cr; exact IH|]. apply dp_char; [|exact IH]. intros [H|[H|[H|[]]]]; congruence.
Qed.

(** C48.  A lexical error: the position is the number of characters before the unreadable
    text on its line; the unreadable text is quoted in the message. *)
Theorem C48_lexical : forall V P q d, env_ok V -> In d (errors_after V P q) -> ed_fragment d = None ->
  exists before bad after earlier line shown,
    q = before ++ bad ++ after /\ bad <> [] /\ on_line before earlier line /\
    ed_position d = Some (PosInt (zlen line)) /\ ed_type d = Some (u "syntax-error") /\
    displayed bad shown /\ ed_message d = u "token recognition error at: '" ++ shown ++ u "'" /\
    (forall w rest ty, bad ++ after = w ++ rest -> w <> [] -> ~ spelled ty w).
Proof.
  intros V P q d HV Hd Hf. destruct (error_cases V P q d HV Hd) as [(e & He & ->)|(c & t & _ & Hc & ->)].
  2:{ unfold syntaxError in Hf. rewrite Hc in Hf. discriminate. }
  destruct (in_lex_errors q e He) as (l1 & l2 & Hl). destruct (lexemes_at _ _ _ _ Hl) as (Hq & _ & Hne & Hlc & _). cbn [lx_text] in *.
  destruct (C04_error q l1 l2 _ _ _ _ Hl) as [Hno _].
  destruct (on_line_exists (concat (map lx_text l1))) as (ea & li & Hon).
  exists (concat (map lx_text l1)), (le_text e), (concat (map lx_text l2)), ea, li, (error_display (le_text e)). repeat apply conj; auto; try apply Hon; try apply error_display_shows.
  - cbn. rewrite <- (on_line_col _ _ _ Hon), <- Hlc. reflexivity.
Qed.
(** On the first line (in particular in one-line queries) this is the offset of the unreadable text. *)
Theorem C48_one_line : forall V P q d, env_ok V -> ~ In 10%N q -> In d (errors_after V P q) -> ed_fragment d = None ->
  exists before bad after, q = before ++ bad ++ after /\ bad <> [] /\ ed_position d = Some (PosInt (zlen before)) /\
    (forall w rest ty, bad ++ after = w ++ rest -> w <> [] -> ~ spelled ty w).
Proof.
  intros V P q d HV Hlf Hd Hf. destruct (C48_lexical V P q d HV Hd Hf) as (b & bad & a & e & l & sh & Hq & Hne & (Hb & He & Hl) & Hp & _ & _ & _ & Hno).
  exists b, bad, a. repeat split; auto. rewrite Hp. do 3 f_equal. destruct He as [->|(x & ->)]; [rewrite Hb; reflexivity|].
  exfalso. apply Hlf. rewrite Hq, Hb, !in_app_iff. cbn. auto.
Qed.
(** A grammatical error: the position is the range of one token of the query, the
    fragment the query up to its end; at the end of input, the empty range there (and no
    position at all if the query is empty). *)
Theorem C48_grammatical : forall V P q d f, env_ok V -> In d (errors_after V P q) -> ed_fragment d = Some f ->
  ed_type d = Some (u "syntax-error") /\
  ((exists before after t, In t (lx_tokens (lexemes q)) /\ q = before ++ t_text t ++ after /\ t_text t <> [] /\
      ed_position d = Some (PosLoc (mkLoc (zlen before) (zlen (before ++ t_text t)))) /\ f = before ++ t_text t) \/
   (f = q /\ q <> [] /\ ed_position d = Some (PosLoc (mkLoc (zlen q) (zlen q)))) \/
   (q = [] /\ f = [] /\ ed_position d = None)).
Proof.
  intros V P q d f HV Hd Hf. destruct (error_cases V P q d HV Hd) as [(e & He & ->)|(c & t & Ht & Hc & ->)]; [discriminate Hf|].
  unfold syntaxError in *. rewrite Hc in *. cbn [ed_type ed_fragment ed_position] in *. split; [reflexivity|]. injection Hf as <-.
  unfold tokens in Ht. apply in_app_or in Ht. destruct Ht as [Ht|[<-|[]]].
  - left. destruct (token_at q t Ht) as (b & a & Hq & Hst & Hsp & Hne & _). exists b, a, t.
    pose proof (zlen_pos _ Hne). pose proof (zlen_nonneg b). pose proof (zlen_nonneg a). split; [exact Ht|]. split; [exact Hq|]. split; [exact Hne|]. split.
    + unfold fromToken. rewrite (proj2 (Z.eqb_neq (t_start t) (-1))), (proj2 (Z.eqb_neq (t_stop t) (-1))) by lia. cbn. rewrite zlen_app, Hst, Hsp.
      do 3 f_equal. lia.
    + rewrite Hst, <- zlen_app. rewrite Hq at 1. rewrite app_assoc. unfold slice, slice_index. cbn [Z.ltb Z.compare].
      assert (Hz : 0 <= zlen (b ++ t_text t) <= zlen ((b ++ t_text t) ++ a)) by (rewrite !zlen_app; lia).
      destruct (Z.ltb_spec (zlen (b ++ t_text t)) 0); [lia|]. rewrite !Z.min_l by lia.
      rewrite Z.sub_0_r. unfold zlen at 1. rewrite Nat2Z.id. cbn [Z.to_nat skipn]. rewrite firstn_app, Nat.sub_diag, firstn_all, firstn_O, app_nil_r. reflexivity.
  - right. pose proof (zlen_nonneg q) as Hz. cbn [eof_token t_start t_text].
    assert (Hsl : slice q 0 (zlen q + zlen (u "<EOF>")) = q).
    { unfold slice, slice_index. replace (zlen (u "<EOF>")) with 5 by reflexivity. destruct (Z.ltb_spec (zlen q + 5) 0) as [Hlt|_]; [exfalso; lia|]. cbn [Z.ltb Z.compare].
      rewrite (Z.min_r (zlen q + 5) (zlen q)), (Z.min_l 0 (zlen q)), Z.sub_0_r by lia. unfold zlen. rewrite Nat2Z.id. cbn. apply firstn_all. }
    rewrite Hsl. destruct q as [|x q]; [right; repeat split; reflexivity|left]. split; [reflexivity|]. split; [discriminate|].
    unfold fromToken. cbn [eof_token t_start t_stop]. set (y := x :: q) in *. assert (0 < zlen y) by (unfold zlen, y; cbn [List.length]; lia).
    rewrite (proj2 (Z.eqb_neq (zlen y) (-1))), (proj2 (Z.eqb_neq (zlen y - 1) (-1))) by lia. cbn [option_map]. replace (zlen y - 1 + 1) with (zlen y) by lia. reflexivity.
Qed.
(** When the tokens are in the grammar, the errors are exactly the lexical errors, in order. *)
Theorem C48_lexical_only : forall V P q, conforms (tokens q) ->
  Forall2 (fun m e => exists shown, displayed (le_text e) shown /\ m = u "token recognition error at: '" ++ shown ++ u "'")
    (map ed_message (errors_after V P q)) (lex_errors q) /\
  map ed_position (errors_after V P q) = map (fun e => Some (PosInt (le_col e))) (lex_errors q).
Proof.
  intros V P q Hc. apply in_grammar_conforms in Hc. unfold errors_after, parser_parse, syntax_errors, listener_calls. cbn [fst qp_errors]. rewrite Hc.
  rewrite !map_map. split; [|apply map_ext; reflexivity]. induction (lex_errors q) as [|e l IH]; constructor; [|exact IH].
  exists (error_display (le_text e)). split; [apply error_display_shows|reflexivity].
Qed.
(** C48 as first worded is false: on later lines a lexical error's position is not an offset, ... *)
Theorem C48_refuted :
  ~ (forall V P q d z, env_ok V -> In d (errors_after V P q) -> ed_position d = Some (PosInt z) ->
       exists before bad after, q = before ++ bad ++ after /\ zlen before = z /\ In bad (map le_text (lex_errors q))).
Proof.
  intros H. set (q := (u "'a'" ++ [10%N] ++ u "#")).
  assert (Hd : In (mkErr (u "token recognition error at: '#'") (Some (u "syntax-error")) (Some (PosInt 0)) None) (errors_after some_env (new_parser (default_cfg true)) q))
    by (vm_compute; left; reflexivity).
  destruct (H some_env (new_parser (default_cfg true)) q _ 0 some_env_ok Hd eq_refl) as (b & bad & a & Hq & Hb & Hin).
  assert (b = []) by (destruct b; [reflexivity|unfold zlen in Hb; cbn [List.length] in Hb; lia]). subst b.
  assert (Hx : map le_text (lex_errors q) = [u "#"]) by (vm_compute; reflexivity). rewrite Hx in Hin. destruct Hin as [<-|[]]. discriminate Hq.
Qed.
(** ... and an error in the empty query has no position. *)
Theorem C48_empty : forall V P, env_ok V -> errors_after V P [] <> [] /\ forall d, In d (errors_after V P []) -> ed_position d = None.
Proof.
  intros V P HV. split.
  - change (errors_after V P []) with (syntax_errors V []). intros H. apply (syntax_errors_none V [] HV) in H.
    destruct H as [_ H]. apply in_grammar_conforms in H. vm_compute in H. discriminate.
  - intros d Hd. destruct (ed_fragment d) as [f|] eqn:Hf.
    + destruct (C48_grammatical V P [] d f HV Hd Hf) as [_ [(b & a & t & _ & Hq & Hne & _)|[(_ & Hne & _)|(_ & _ & H)]]]; [|congruence|exact H].
      exfalso. destruct b; [|discriminate]. destruct (t_text t); [congruence|discriminate].
    + destruct (C48_lexical V P [] d HV Hd Hf) as (b & bad & a & e & l & sh & Hq & Hne & _). exfalso. destruct b; [|discriminate]. destruct bad; [congruence|discriminate].
Qed.
Example C48_witness :
  map ed_position (errors_after some_env (new_parser (default_cfg true)) (u "'a' # 'b' $")) = [Some (PosInt 4); Some (PosInt 10)] /\
  map ed_position (errors_after some_env (new_parser (default_cfg true)) (u "'a' [")) = [Some (PosLoc (mkLoc 5 5))].
Proof. split; vm_compute; reflexivity. Qed.

(** C49.  [antlr_parse] raises exactly if the tokens do not conform, whatever lexical errors there are. *)
Theorem C49_exact : forall q,
  (exists e, antlr_parse q = Raise e) <-> ~ conforms (tokens q).
Proof.
  intros q. unfold antlr_parse. split.
  - intros (e & H) Hc. destruct (antlr_query_selects _ Hc) as (t & Ht & _). rewrite Ht in H. discriminate.
  - intros H. rewrite (antlr_query_none _ H). eauto.
Qed.
Theorem C49_exception : forall q e, antlr_parse q = Raise e -> e = SyntaxErrorExn.
Proof. intros q e. unfold antlr_parse. destruct (antlr_query (tokens q)); congruence. Qed.
(** [parse] reports a syntax error iff [antlr_parse] raises or some text is no token. *)
Theorem C49_relation : forall V P q, env_ok V ->
  errors_after V P q <> [] <-> ((exists e, antlr_parse q = Raise e) \/ lex_errors q <> []).
Proof.
  intros V P q HV. change (errors_after V P q) with (syntax_errors V q). rewrite (syntax_errors_none V q HV), C49_exact. unfold well_formed. split.
  - intros H. destruct (lex_errors q); [left; intros Hc; apply H; auto|right; discriminate].
  - intros [H|H] [A B]; [exact (H B)|congruence].
Qed.
(** So it never raises on a query [parse] accepts, and its tree covers exactly the tokens. *)
Theorem C49_sound : forall V P q n, env_ok V -> parse V P q = Ok n ->
  exists t, antlr_parse q = Ok t /\ parse_tree query t /\ leaves t = tokens q.
Proof.
  intros V P q n HV Hp. destruct (parse_ok_inv V P q n HV Hp) as (m & [[_ Hc] _] & _). destruct (antlr_query_selects _ Hc) as (t & Ht & _ & A & B).
  exists t. unfold antlr_parse. rewrite Ht. auto.
Qed.
Theorem C49_refuted :
  ~ (forall V P q, env_ok V -> (exists e, antlr_parse q = Raise e) <-> errors_after V P q <> []).
Proof.
  intros H. destruct (H some_env (new_parser (default_cfg true)) (u "'a' #") some_env_ok) as [_ B].
  destruct B as (e & He); [vm_compute; discriminate|]. vm_compute in He. discriminate.
Qed.
Example C49_witness : (exists t, antlr_parse (u "'a' # [b='c']") = Ok t) /\ antlr_parse (u "'a' |") = Raise SyntaxErrorExn.
Proof. split; [eexists|]; vm_compute; reflexivity. Qed.
Print Assumptions C48_lexical. Print Assumptions C48_one_line. Print Assumptions C48_grammatical. Print Assumptions C48_lexical_only. Print Assumptions C48_refuted.
Print Assumptions C48_empty. Print Assumptions C49_exact. Print Assumptions C49_relation. Print Assumptions C49_sound. Print Assumptions C49_refuted.
