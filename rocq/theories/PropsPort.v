(** C76: what the interpreter and its libraries can change about a result. *)
From Coq Require Import String.
From Verif Require Import Base Regex LexRules Lexer Grammar Antlr Ast Builder Parser ModelTests LexSpec LitSpec GramSpec ValueSpec
  SpellSpec BuilderFacts ParseSpec ParseFacts EvFacts SimFacts PropsParse PropsRead PortSpec.
Local Open Scope Z_scope.

Definition agree {A} (a b : res A) : Prop := forall x y, a = Ok x -> b = Ok y -> x = y.
Lemma agree_refl {A} (a : res A) : agree a a.
Proof. intros x y H H'. congruence. Qed.
Lemma agree_bind {A B} (a b : res A) (f g : A -> res B) : agree a b -> (forall x, agree (f x) (g x)) -> agree (rbind a f) (rbind b g).
Proof.
  intros H Hf x y. destruct a as [v|e]; cbn [rbind]; [|discriminate]. destruct b as [w|e]; cbn [rbind]; [|discriminate].
  rewrite (H v w eq_refl eq_refl). apply Hf.
Qed.
Lemma agree_map {A B} (a b : res A) (f : A -> B) : agree a b -> agree (rmap f a) (rmap f b).
Proof. intros H x y. destruct a as [v|e]; cbn; [|discriminate]. destruct b as [w|e]; cbn; [|discriminate]. rewrite (H v w eq_refl eq_refl). congruence. Qed.
Lemma agree_raise {A} e (b : res A) : agree (Raise e) b.
Proof. intros x y H. discriminate H. Qed.
Lemma agree_if {A} (c : bool) (a b a' b' : res A) : agree a a' -> agree b b' -> agree (if c then a else b) (if c then a' else b').
Proof. destruct c; auto. Qed.

Section Two.
  Variables (E E' : penv) (C : pcfg).
  Lemma chr_agree cp : agree (chr E cp) (chr E' cp).
  Proof. unfold chr. destruct (cp <=? 1114111)%N; [apply agree_refl|]. destruct ((cp <? 2147483648)%N || negb (env_chr_overflows E)); apply agree_raise. Qed.
  Lemma unicode_agree c r k : agree (unescapeUnicode E c r k) (unescapeUnicode E' c r k).
  Proof. unfold unescapeUnicode. apply agree_if; [|apply agree_raise]. apply agree_bind; [apply agree_refl|apply chr_agree]. Qed.
  Lemma one_agree c r : agree (unescape_one E c r) (unescape_one E' c r).
  Proof. unfold unescape_one. repeat (apply agree_if; [first [apply agree_refl|apply agree_map, unicode_agree]|]). apply agree_refl. Qed.
  Lemma loop_agree f : forall s, agree (unescape_loop E f s) (unescape_loop E' f s).
  Proof.
    induction f as [|f IH]; intros [|c s]; cbn [unescape_loop]; try apply agree_refl. apply agree_if; [|apply agree_map, IH].
    destruct s as [|e r]; [apply agree_refl|]. apply agree_bind; [apply one_agree|]. intros [out k]. apply agree_map, IH.
  Qed.
  Lemma value_agree w v v' : regexp_value E C w = Ok v -> regexp_value E' C w = Ok v' -> exists x, v = normalised E C x /\ v' = normalised E' C x.
  Proof.
    unfold regexp_value, normalised. destruct (stripQuotes w) as [r|e]; cbn [rbind]; [|discriminate].
    assert (Ha : agree (if char_in 92 r then unescapeString E r else Ok r) (if char_in 92 r then unescapeString E' r else Ok r)) by (apply agree_if; [apply loop_agree|apply agree_refl]).
    destruct (if char_in 92 r then unescapeString E r else Ok r) as [x|e]; cbn [rbind]; [|discriminate].
    destruct (if char_in 92 r then unescapeString E' r else Ok r) as [y|e]; cbn [rbind]; [|discriminate].
    rewrite <- (Ha x y eq_refl eq_refl). intros H H'. injection H as <-. injection H' as <-. exists x. auto.
  Qed.
  Lemma int_agree w : agree (parseInt E w) (parseInt E' w).
  Proof. intros x y. unfold parseInt. destruct (_ && _); [|discriminate]. destruct (_ && _); [|discriminate]. congruence. Qed.
  Lemma range_agree ch : agree (processRepetitionRange E ch) (processRepetitionRange E' ch).
  Proof.
    unfold processRepetitionRange. assert (At : forall i, agree (rbind (child_text ch i) (parseInt E)) (rbind (child_text ch i) (parseInt E'))) by (intros i; apply agree_bind; [apply agree_refl|apply int_agree]).
    apply agree_bind; [|intros [mn mx]; apply agree_refl]. apply agree_if.
    - apply agree_bind; [apply agree_if; [apply At|apply agree_refl]|]. intros mn. apply agree_bind; [|intros; apply agree_refl].
      apply agree_if; [apply At|]. apply agree_if; [apply At|apply agree_refl].
    - apply agree_if; [apply agree_refl|]. apply agree_map, At.
  Qed.
  Lemma repetition_agree ch : agree (repetition E ch) (repetition E' ch).
  Proof.
    unfold repetition. destruct (find_rule quantifier ch) as [[k|r qch]|]; try apply agree_refl. unfold processRepetition.
    repeat (apply agree_if; [apply agree_refl|]). apply agree_if; [apply range_agree|apply agree_refl].
  Qed.
  Lemma ev_regexp_agree ch v fl v' fl' : ev_regexp E C ch = Some (v, fl) -> ev_regexp E' C ch = Some (v', fl') ->
    fl = fl' /\ exists x, v = normalised E C x /\ v' = normalised E' C x.
  Proof.
    unfold ev_regexp. destruct (find_rule regexp ch) as [[k|r cr]|]; try discriminate. destruct (find_rule regexp_pattern cr) as [p|]; [|discriminate].
    destruct (regexp_value E C (get_text p)) as [a|e] eqn:H1; [|discriminate]. destruct (match find_rule regexp_flag cr with Some f => regexp_flags (get_text f) | None => Ok no_flags end) as [g|e]; [|discriminate].
    destruct (regexp_value E' C (get_text p)) as [b|e] eqn:H2; [|discriminate]. intros H H'. injection H as <- <-. injection H' as <- <-. split; [reflexivity|]. eapply value_agree; eassumption.
  Qed.
  Notation sbv := (same_but_values E E' C).
  Lemma evs_agree ch : Forall (fun t => forall n n', ev E C t = Some n -> ev E' C t = Some n' -> sbv n n') ch ->
    forall ns ns', evs E C ch = Some ns -> evs E' C ch = Some ns' -> Forall2 sbv ns ns'.
  Proof.
    induction 1 as [|c ch Hc _ IH]; intros ns ns' H H'.
    - injection H as <-. injection H' as <-. constructor.
    - destruct c as [k|r cc]; cbn [evs] in H, H'; [auto|]. destruct (valueless r); [auto|].
      destruct (ev E C (Node r cc)) as [n|] eqn:H1; [|discriminate]. destruct (evs E C ch) as [l|]; [|discriminate].
      destruct (ev E' C (Node r cc)) as [n'|] eqn:H2; [|discriminate]. destruct (evs E' C ch) as [l'|]; [|discriminate].
      injection H as <-. injection H' as <-. constructor; auto.
  Qed.
  Lemma ev_agree t : forall n n', ev E C t = Some n -> ev E' C t = Some n' -> sbv n n'.
  Proof.
    induction t as [k|r ch IH] using ptree_ind'; intros n n'; [discriminate|]. rewrite !ev_eq.
    pose proof (evs_agree ch IH) as He. destruct (evs E C ch) as [qs|]; destruct (evs E' C ch) as [qs'|]; try specialize (He qs qs' eq_refl eq_refl).
    all: destruct r; cbn [ev_node option_map]; try discriminate.
    all: try (intros H H'; injection H as <-; injection H' as <-; apply sbv_node; [discriminate|exact He]).
    all: pose proof (repetition_agree ch) as Hrep. all: pose proof (ev_regexp_agree ch) as Hreg.
    all: repeat match goal with
      | |- context [find_rule within_part ?c] => destruct (find_rule within_part c)
      | |- context [if ?b then _ else _] => destruct b
      end.
    all: try discriminate. all: try (intros H H'; discriminate H').
    all: try (inversion He as [|a b l l' Hab Hl]; subst; [|inversion Hl as [|a2 b2 l2 l2' Hab2 Hl2]; subst; [|inversion Hl2; subst]]; clear He; try discriminate).
    all: try (intros H H'; injection H as <-; injection H' as <-; first [assumption|apply sbv_node; [discriminate|repeat (constructor; try assumption)]]).
    all: try (destruct (repetition E ch) as [[mn mx]|] eqn:R1; [|discriminate]; destruct (repetition E' ch) as [[mn' mx']|] eqn:R2; [|discriminate];
      first [pose proof (Hrep _ _ eq_refl eq_refl) as Hx|pose proof (Hrep _ _ R1 R2) as Hx]; injection Hx as <- <-; intros H H'; injection H as <-; injection H' as <-; apply sbv_node; [discriminate|constructor; [assumption|constructor]]).
    all: try (destruct (ev_attribute ch) as [[qu idt]|]; [|discriminate]).
    all: try (destruct (ev_regexp E C ch) as [[v fl]|] eqn:R1; [|discriminate]; destruct (ev_regexp E' C ch) as [[v' fl']|] eqn:R2; [|discriminate];
      first [destruct (Hreg _ _ _ _ eq_refl eq_refl) as (<- & x2 & -> & ->)|destruct (Hreg _ _ _ _ R1 R2) as (<- & x2 & -> & ->)]; intros K K'; injection K as <-; injection K' as <-; apply sbv_expression).
    all: try (destruct ch as [|c ch']; [discriminate|]; destruct (within_scope (get_text c)); [|discriminate]).
    all: try (intros K K'; injection K as <-; injection K' as <-; apply sbv_node; [discriminate|constructor]).
  Qed.
End Two.

Lemma sbv_erase E E' C n n' : same_but_values E E' C n n' -> same_but_values E E' C (erase n) (erase n').
Proof.
  revert n'. induction n as [p l ch IH] using qnode_ind'. intros n' H. inversion H as [q i op x fl l0|p0 l0 c c' Hp Hf]; subst; cbn [erase map]; constructor; [assumption|].
  clear H. revert c' Hf. induction IH as [|a r Ha _ IHr]; intros c' Hf; inversion Hf; subst; cbn [map]; constructor; auto.
Qed.

(** A query accepted under one interpreter is accepted under any other whose limit on digits its repetition bounds respect, and the trees are the
    same up to the normalisation of the values. *)
Theorem C76_trees : forall (V V' : env) (P : qparser) (q : pystr) (n : qnode), env_ok V -> env_ok V' ->
  parse V P q = Ok n -> (forall t, In t (tokens q) -> t_type t = INTEGER -> int_ok (e_penv V') (t_text t)) ->
  exists n', parse V' P q = Ok n' /\ same_but_values (e_penv V) (e_penv V') (qp_cfg P) n n'.
Proof.
  intros V V' P q n HV HV' H Hi. destruct (parse_outcome V' P q HV') as [(x & _ & _ & _ & Hx)|(Hn & _)].
  - eexists. split; [exact Hx|]. destruct (parse_ev V P q n HV H) as (t & m & Ht & _ & _ & Hm & _ & ->).
    destruct (parse_ev V' P q _ HV' Hx) as (t' & m' & Ht' & _ & _ & Hm' & _ & ->). rewrite Ht in Ht'. injection Ht' as <-.
    pose proof (ev_agree _ _ _ _ _ _ Hm Hm') as Ha. destruct (enableSourceLocations (qp_cfg P)); [exact Ha|]. apply sbv_erase, Ha.
  - destruct (parse_ok_inv V P q n HV H) as (m & [Hw (A & B & _ & D)] & _). exfalso. apply Hn. split; [exact Hw|]. repeat split; assumption.
Qed.

Lemma sbv_same E E' C : unicode_normalization_form C = None \/ (forall f s, env_normalize E f s = env_normalize E' f s) -> forall n n', same_but_values E E' C n n' -> n = n'.
Proof.
  intros He n. induction n as [p l ch IH] using qnode_ind'. intros n' H. inversion H as [q i op x fl l0|p0 l0 c c' Hp Hf]; subst.
  - unfold normalised. destruct He as [-> |He]; [reflexivity|]. destruct (unicode_normalization_form C); [|reflexivity]. rewrite He. reflexivity.
  - f_equal. clear H. revert c' Hf. induction IH as [|a r Ha _ IHr]; intros c' Hf; inversion Hf; subst; f_equal; auto.
Qed.
(** Without normalisation, or under interpreters with the same one, two accepting calls return the same tree. *)
Theorem C76_same : forall (V V' : env) (P : qparser) (q : pystr) (n n' : qnode), env_ok V -> env_ok V' ->
  unicode_normalization_form (qp_cfg P) = None \/ (forall f s, env_normalize (e_penv V) f s = env_normalize (e_penv V') f s) ->
  parse V P q = Ok n -> parse V' P q = Ok n' -> n' = n.
Proof.
  intros V V' P q n n' HV HV' He H H'. destruct (parse_ok_inv V' P q n' HV' H') as (m & [_ (_ & _ & A & _)] & _).
  destruct (C76_trees V V' P q n HV HV' H A) as (x & Hx & Hs). rewrite H' in Hx. injection Hx as <-. symmetry. eapply sbv_same; eassumption.
Qed.

(** A query accepted under one interpreter and not under another has a repetition bound with more digits than the other reads. *)
Theorem C76_rejected : forall (V V' : env) (P : qparser) (q : pystr) (n : qnode) (e : exn), env_ok V -> env_ok V' ->
  parse V P q = Ok n -> parse V' P q = Raise e ->
  exists t, In t (tokens q) /\ t_type t = INTEGER /\ ~ int_ok (e_penv V') (t_text t).
Proof.
  intros V V' P q n e HV HV' H H'.
  assert (Hd : (exists t, In t (tokens q) /\ t_type t = INTEGER /\ ~ int_ok (e_penv V') (t_text t)) \/
    (forall t, In t (tokens q) -> t_type t = INTEGER -> int_ok (e_penv V') (t_text t))).
  { generalize (tokens q). intros l. induction l as [|t l [(x & Hx & Hr)|IH]]; [right; intros t []|left; exists x; split; [right; exact Hx|exact Hr]|].
    assert (Hi : int_ok (e_penv V') (t_text t) \/ ~ int_ok (e_penv V') (t_text t)) by (unfold int_ok; lia).
    destruct Hi as [Hi|Hi]; [right; intros x [<-|Hx] Ht; [exact Hi|exact (IH x Hx Ht)]|].
    assert (Ht : t_type t = INTEGER \/ t_type t <> INTEGER) by (destruct (t_type t); first [left; reflexivity|right; discriminate]).
    destruct Ht as [Ht|Ht]; [left; exists t; split; [left; reflexivity|auto]|right; intros x [<-|Hx] Hy; [contradiction|exact (IH x Hx Hy)]]. }
  destruct Hd as [Hd|Hd]; [exact Hd|]. destruct (C76_trees V V' P q n HV HV' H Hd) as (x & Hx & _). rewrite H' in Hx. discriminate.
Qed.

(** An interpreter with another normalisation, a limit of one digit and no overflow in [chr], and other complaints. *)
Definition other_env : env :=
  mkEnv (mkPEnv (fun _ s => s ++ u "!") 1 false) (fun q => [mkCall (Some (eof_token q)) 7 7 (u "mismatched input")]).
Lemma other_env_ok : env_ok other_env.
Proof.
  intros q _. split.
  - eexists. split; [left; reflexivity|discriminate].
  - intros c [<-|[]]. right. exists (eof_token q). split; [apply in_or_app; right; left; reflexivity|reflexivity].
Qed.
Example C76_witness : exists n n', parse some_env (new_parser (default_cfg true)) (u "[pos = 'N.*'/i & !lemma = 'b']{2,3} 'c' within s") = Ok n /\
  parse other_env (new_parser (default_cfg true)) (u "[pos = 'N.*'/i & !lemma = 'b']{2,3} 'c' within s") = Ok n' /\ n <> n' /\
  forall t, In t (tokens (u "[pos = 'N.*'/i & !lemma = 'b']{2,3} 'c' within s")) -> t_type t = INTEGER -> int_ok (e_penv other_env) (t_text t).
Proof.
  eexists. eexists. split; [vm_compute; reflexivity|]. split; [vm_compute; reflexivity|]. split; [discriminate|].
  intros t Ht Hi. right. assert (Hb : forallb (fun t => match t_type t with INTEGER => zlen (t_text t) <=? 1 | _ => true end) (tokens (u "[pos = 'N.*'/i & !lemma = 'b']{2,3} 'c' within s")) = true) by (vm_compute; reflexivity).
  rewrite forallb_forall in Hb. specialize (Hb t Ht). rewrite Hi in Hb. cbn. clear -Hb. lia.
Qed.
Example C76_witness_digits : exists n e, parse some_env (new_parser (default_cfg true)) (u "[pos = 'N']{2,30}") = Ok n /\
  parse other_env (new_parser (default_cfg true)) (u "[pos = 'N']{2,30}") = Raise e.
Proof. eexists. eexists. split; vm_compute; reflexivity. Qed.

Print Assumptions C76_trees. Print Assumptions C76_same. Print Assumptions C76_rejected.
