(** Messages of builder errors never look like syntax errors. *)
From Coq Require Import String.
From Verif Require Import Base LexRules Lexer Grammar Antlr Ast Builder Parser.
Local Open Scope Z_scope.

Definition syntax_prefix : pystr := u "unable to parse query: ".
Definition tame_exn (e : exn) : Prop :=
  match e with BuilderError m => startswith syntax_prefix m = false | QueryParserError _ => False | _ => True end.
Definition tame {A} (r : res A) : Prop := match r with Ok _ => True | Raise e => tame_exn e end.
Lemma tame_bind {A B} (r : res A) (f : A -> res B) : tame r -> (forall a, tame (f a)) -> tame (rbind r f).
Proof. destruct r; cbn; auto. Qed.
Lemma tame_map {A B} (f : A -> B) (r : res A) : tame r -> tame (rmap f r).
Proof. destruct r; cbn; auto. Qed.
Ltac tm :=
  repeat match goal with
  | |- tame (Ok _) => exact I
  | |- tame (Raise _) => first [reflexivity | exact I]
  | |- tame (rbind _ _) => apply tame_bind; [|intros]
  | |- tame (rmap _ _) => apply tame_map
  | |- tame (if ?b then _ else _) => destruct b
  | |- tame (let (_, _) := ?p in _) => destruct p
  | |- tame (match ?x with _ => _ end) => destruct x
  end; auto.

Lemma tame_int E v : tame (parseInt E v).
Proof. unfold parseInt. tm. Qed.
Lemma tame_range E ch : tame (processRepetitionRange E ch).
Proof. unfold processRepetitionRange, child_text. cbv zeta. tm; apply tame_int. Qed.
Lemma tame_rep E ch : tame (processRepetition E ch).
Proof. unfold processRepetition. tm. apply tame_range. Qed.
Lemma tame_hex : forall s cp, tame (hex_digits cp s).
Proof. induction s as [|c s IH]; intros cp; cbn [hex_digits]; [exact I|]. unfold parseHexChar. tm. Qed.
Lemma tame_unicode E c rest k : tame (unescapeUnicode E c rest k).
Proof. unfold unescapeUnicode, chr. tm. apply tame_hex. Qed.
Lemma tame_one E c rest : tame (unescape_one E c rest).
Proof. unfold unescape_one. tm; apply tame_unicode. Qed.
Lemma tame_unescape E : forall fuel s, tame (unescape_loop E fuel s).
Proof. induction fuel as [|f IH]; intros [|c s]; cbn [unescape_loop]; try exact I. tm. apply tame_one. Qed.
Lemma tame_value E C s : tame (regexp_value E C s).
Proof. unfold regexp_value, stripQuotes, unescapeString. tm. apply tame_unescape. Qed.
Lemma tame_flag_loop : forall v fl, tame (flag_loop v fl).
Proof. induction v as [|c v IH]; intros fl; cbn [flag_loop]; [exact I|]. tm. Qed.
Lemma tame_flags v : tame (regexp_flags v).
Proof. unfold regexp_flags. tm. apply tame_flag_loop. Qed.
Lemma tame_scope v : tame (within_scope v).
Proof. unfold within_scope. tm. Qed.

Section Tame.
  Context {H Nd : Type} (new_node : payload -> list Nd -> H -> H * Nd) (set_loc : Nd -> option sloc -> H -> H * Nd).
  Variables (E : penv) (C : pcfg).
  Lemma tame_pop (s : st (H:=H) (Nd:=Nd)) : tame (pop s).
  Proof. unfold pop. tm. Qed.
  Lemma tame_pop_node (s : st (H:=H) (Nd:=Nd)) : tame (pop_node s).
  Proof. unfold pop_node. apply tame_bind; [apply tame_pop|intros [[] ?]; exact I]. Qed.
  Lemma tame_take : forall k (s : st (H:=H) (Nd:=Nd)) acc, tame (take_nodes k s acc).
  Proof. induction k as [|k IH]; intros s acc; cbn [take_nodes]; [exact I|]. apply tame_bind; [apply tame_pop_node|intros [? ?]; apply IH]. Qed.
  Lemma tame_list name p t sup (s : st (H:=H) (Nd:=Nd)) : startswith syntax_prefix (name ++ u " is empty") = false -> tame (sup s) ->
    tame (visit_list new_node set_loc C name p t sup s).
  Proof. intros Hn Hs. unfold visit_list. tm. apply tame_take. Qed.
  Lemma tame_finish t (s : st (H:=H) (Nd:=Nd)) : tame (finish_expression new_node set_loc C t s).
  Proof.
    unfold finish_expression, pop_flags, pop_str, pop_op. repeat (apply tame_bind; [apply tame_bind; [apply tame_pop|intros [[] ?]; exact I]|intros [? ?]]). exact I.
  Qed.
  Lemma tame_rule r t ch sup (s : st (H:=H) (Nd:=Nd)) : (forall s, tame (sup s)) -> tame (visit_rule new_node set_loc E C r t ch sup s).
  Proof.
    intros Hs. destruct r; cbn [visit_rule]; auto; try (apply tame_list; [reflexivity|auto]; fail);
    unfold visitQuery, visitQuery_group, visitQuery_simple, repetition, visitQuery_implicit, visitQuery_segment, visitWithin_part_simple,
      visitExpression_basic, visit_unary, visitAttribute, visitRegexp; tm;
    first [apply tame_pop_node|apply tame_rep|apply tame_finish|apply tame_scope|apply tame_value|apply tame_flags].
  Qed.
  Lemma tame_tree : forall t (s : st (H:=H) (Nd:=Nd)), tame (visit_tree new_node set_loc E C t s).
  Proof.
    fix IH 1. intros [k|r ch] s; [exact I|]. cbn [visit_tree]. apply tame_rule. clear s. induction ch as [|c ch IHc]; intros s; [exact I|].
    apply tame_bind; [apply IH|exact IHc].
  Qed.
  Lemma tame_builder t h : tame (run_builder new_node set_loc E C t h).
  Proof. unfold run_builder. apply tame_bind; [apply tame_tree|]. intros. apply tame_map. apply tame_pop_node. Qed.
End Tame.
