(** Facts about the lexer. *)
From Verif Require Import Base Regex RegexFacts LexRules Lexer LexSpec.

Definition first_type (rs : rules) (w : pystr) : option ttype :=
  option_map fst (find (fun p => matches (snd p) w) rs).

Lemma first_type_advance c rs w : first_type (advance c rs) w = first_type rs (c :: w).
Proof.
  unfold first_type, advance. induction rs as [|[ty r] rs IH]; [reflexivity|].
  cbn [map filter find fst snd]. rewrite matches_cons.
  destruct (void (deriv c r)) eqn:Hv; cbn [negb].
  - rewrite (void_matches _ w Hv). exact IH.
  - cbn [find fst snd]. destruct (matches (deriv c r) w); [reflexivity|exact IH].
Qed.

Lemma first_type_nil rs : first_type rs [] = accepting rs.
Proof.
  unfold first_type, accepting. change (fun p : ttype * regex => matches (snd p) [])
    with (fun p : ttype * regex => nullable (snd p)).
  destruct (find _ rs); reflexivity.
Qed.

Lemma first_type_empty w : first_type [] w = None.
Proof. reflexivity. Qed.

(** What [exec_atn] computes. *)
Lemma exec_atn_spec s : forall rs n prev,
  (exists k ty, 1 <= k <= length s /\ fst (exec_atn rs s n prev) = Some (ty, n + k) /\
      first_type rs (firstn k s) = Some ty /\
      forall k', k < k' <= length s -> first_type rs (firstn k' s) = None)
  \/ (fst (exec_atn rs s n prev) = prev /\
      forall k', 1 <= k' <= length s -> first_type rs (firstn k' s) = None).
Proof.
  induction s as [|c s IH]; intros rs n prev.
  - right. cbn. split; [reflexivity|]. intros; lia.
  - cbn [exec_atn].
    assert (Hadv : forall k', 1 <= k' -> k' <= length (c :: s) ->
        first_type rs (firstn k' (c :: s)) = first_type (advance c rs) (firstn (k' - 1) s)).
    { intros k' H1 _. destruct k' as [|k']; [lia|]. cbn [firstn].
      rewrite first_type_advance, Nat.sub_succ, Nat.sub_0_r. reflexivity. }
    destruct (advance c rs) as [|p rs'] eqn:Ha.
    + right. split; [reflexivity|]. intros k' Hk'. rewrite Hadv by lia. reflexivity.
    + set (rs1 := p :: rs') in *.
      specialize (IH rs1 (S n) (match accepting rs1 with Some ty => Some (ty, S n) | None => prev end)).
      destruct IH as [(k & ty & Hk & Hf & Ht & Hmax) | (Hf & Hno)].
      * left. exists (S k), ty. cbn [length]. split; [lia|]. split.
        { rewrite Hf. replace (n + S k) with (S n + k) by lia. reflexivity. }
        split.
        { rewrite Hadv by (cbn [length]; lia). rewrite Nat.sub_succ, Nat.sub_0_r. exact Ht. }
        { intros k' Hk'. rewrite Hadv by (cbn [length] in *; lia). cbn [length] in Hk'. apply Hmax. lia. }
      * destruct (accepting rs1) as [ty|] eqn:Hacc.
        { left. exists 1, ty. cbn [length]. split; [lia|]. split.
          { rewrite Hf. replace (n + 1) with (S n) by lia. reflexivity. }
          split.
          { rewrite Hadv by (cbn [length]; lia). cbn [Nat.sub firstn]. rewrite first_type_nil. exact Hacc. }
          { intros k' Hk'. rewrite Hadv by (cbn [length] in *; lia). cbn [length] in Hk'. apply Hno. lia. } }
        { right. split; [exact Hf|]. intros k' Hk'.
          rewrite Hadv by (cbn [length] in *; lia).
          destruct (Nat.eq_dec k' 1) as [->|].
          - cbn [Nat.sub firstn]. rewrite first_type_nil. exact Hacc.
          - apply Hno. cbn [length] in Hk'. lia. }
Qed.

(** How far a failed match reads: to the end, or to a point where every rule is dead. *)
Lemma exec_atn_read s : forall rs n prev,
  exists k, snd (exec_atn rs s n prev) = n + k /\ k <= length s /\
    (k = length s \/ forall w, first_type rs (firstn (S k) s ++ w) = None).
Proof.
  induction s as [|c s IH]; intros rs n prev.
  - exists 0. cbn. repeat split; auto; lia.
  - cbn [exec_atn]. destruct (advance c rs) as [|p rs'] eqn:Ha.
    + exists 0. cbn [snd length firstn]. repeat split; try lia. right. intros w. cbn [app].
      rewrite <- first_type_advance, Ha. reflexivity.
    + set (rs1 := p :: rs') in *.
      destruct (IH rs1 (S n) (match accepting rs1 with Some ty => Some (ty, S n) | None => prev end))
        as (k & H1 & H2 & H3).
      exists (S k). rewrite H1. cbn [length]. repeat split; try lia.
      destruct H3 as [H3|H3]; [left; lia|]. right. intros w.
      change (firstn (S (S k)) (c :: s)) with (c :: firstn (S k) s). cbn [app].
      rewrite <- first_type_advance, Ha. apply H3.
Qed.

(** Bridge to the specification. *)
Lemma find_first {A} (f : A -> bool) l x :
  find f l = Some x <-> exists l1 l2, l = l1 ++ x :: l2 /\ f x = true /\ forall y, In y l1 -> f y = false.
Proof.
  split.
  - induction l as [|a l IH]; [discriminate|]. cbn [find]. destruct (f a) eqn:Hf.
    + intros [= <-]. exists [], l. repeat split; auto. intros y [].
    + intros H. destruct (IH H) as (l1 & l2 & -> & Hx & Hl). exists (a :: l1), l2. repeat split; auto.
      intros y [<-|Hy]; auto.
  - intros (l1 & l2 & -> & Hx & Hl). induction l1 as [|a l1 IH]; cbn [app find].
    + rewrite Hx. reflexivity.
    + rewrite (Hl a) by (left; reflexivity). apply IH. intros y Hy. apply Hl. right. exact Hy.
Qed.

Lemma find_none_iff {A} (f : A -> bool) l : find f l = None <-> forall x, In x l -> f x = false.
Proof.
  split; [apply find_none|]. induction l as [|a l IH]; [reflexivity|]. intros H. cbn.
  rewrite (H a) by (left; reflexivity). apply IH. intros x Hx. apply H. right. exact Hx.
Qed.

Lemma not_matches_lang r w : matches r w = false <-> ~ lang r w.
Proof.
  rewrite <- matches_lang. destruct (matches r w); split; try congruence; auto.
Qed.

Lemma first_type_some w ty : first_type lex_rules w = Some ty <-> first_rule w ty.
Proof.
  unfold first_type, first_rule. split.
  - destruct (find _ lex_rules) as [[ty' r]|] eqn:Hf; [|discriminate]. intros [= <-].
    apply find_first in Hf. destruct Hf as (l1 & l2 & Hl & Hx & Hy).
    exists l1, r, l2. split; [exact Hl|]. split; [apply matches_lang; exact Hx|].
    intros p Hp. apply not_matches_lang. apply (Hy p Hp).
  - intros (l1 & r & l2 & Hl & Hr & Hp).
    rewrite (proj2 (find_first _ lex_rules (ty, r))); [reflexivity|].
    exists l1, l2. split; [exact Hl|]. split; [apply matches_lang; exact Hr|].
    intros p H. apply not_matches_lang. apply Hp. exact H.
Qed.

Lemma first_type_none w : first_type lex_rules w = None <-> ~ matched w.
Proof.
  unfold first_type, matched. split.
  - destruct (find _ lex_rules) eqn:Hf; [discriminate|]. intros _ (ty & r & Hin & Hl).
    apply matches_lang in Hl. pose proof (find_none _ _ Hf (ty, r) Hin) as H. cbn in H. congruence.
  - intros H. rewrite (proj2 (find_none_iff _ lex_rules)); [reflexivity|].
    intros [ty r] Hin. apply not_matches_lang. intros Hl. apply H. eauto.
Qed.

Lemma first_rule_matched w ty : first_rule w ty -> matched w.
Proof.
  intros (l1 & r & l2 & Hl & Hr & _). exists ty, r. split; [|exact Hr].
  rewrite Hl. apply in_or_app. right. left. reflexivity.
Qed.

Lemma matched_first w : matched w -> exists ty, first_rule w ty.
Proof.
  intros H. destruct (first_type lex_rules w) as [ty|] eqn:E.
  - exists ty. apply first_type_some. exact E.
  - apply first_type_none in E. contradiction.
Qed.

Lemma first_rule_det w ty ty' : first_rule w ty -> first_rule w ty' -> ty = ty'.
Proof. rewrite <- !first_type_some. congruence. Qed.

Lemma prefix_firstn {A} (s w rest : list A) : s = w ++ rest -> w = firstn (length w) s.
Proof. intros ->. rewrite firstn_app, Nat.sub_diag, firstn_all. cbn. rewrite app_nil_r. reflexivity. Qed.

(** The two outcomes of one lexer round, specified. *)
Lemma exec_longest s : s <> [] ->
  (exists ty n, fst (exec_atn lex_rules s 0 None) = Some (ty, n) /\ 1 <= n <= length s /\
      longest_match s ty (firstn n s))
  \/ (fst (exec_atn lex_rules s 0 None) = None /\ no_match s).
Proof.
  intros Hs. destruct (exec_atn_spec s lex_rules 0 None) as [(k & ty & Hk & Hf & Ht & Hmax) | (Hf & Hno)].
  - left. exists ty, k. split; [exact Hf|]. split; [exact Hk|].
    split. { destruct s; [congruence|]. destruct k; [lia|]. discriminate. }
    split. { exists (skipn k s). symmetry. apply firstn_skipn. }
    split. { apply first_type_some. exact Ht. }
    intros w' rest' Hw Hlt. rewrite firstn_length_le in Hlt by lia.
    rewrite (prefix_firstn _ _ _ Hw). apply first_type_none. apply Hmax.
    split; [lia|]. rewrite Hw, app_length. lia.
  - right. split; [exact Hf|]. intros w rest Hw Hne.
    rewrite (prefix_firstn _ _ _ Hw). apply first_type_none. apply Hno.
    split; [destruct w; [congruence|cbn; lia]|]. rewrite Hw, app_length. lia.
Qed.

Lemma longest_match_det s ty w ty' w' :
  longest_match s ty w -> longest_match s ty' w' -> ty = ty' /\ w = w'.
Proof.
  intros (_ & (r1 & H1) & Hf1 & M1) (_ & (r2 & H2) & Hf2 & M2).
  assert (length w = length w').
  { destruct (Nat.lt_trichotomy (length w) (length w')) as [L|[L|L]]; [|exact L|].
    - exfalso. exact (M1 _ _ H2 L (first_rule_matched _ _ Hf2)).
    - exfalso. exact (M2 _ _ H1 L (first_rule_matched _ _ Hf1)). }
  assert (w = w').
  { pose proof (prefix_firstn _ _ _ H1). pose proof (prefix_firstn _ _ _ H2). congruence. }
  subst w'. split; [eapply first_rule_det; eauto|reflexivity].
Qed.

Lemma no_match_longest s ty w : no_match s -> ~ longest_match s ty w.
Proof.
  intros Hn (Hne & (r & ->) & Hf & _). eapply Hn; [reflexivity|exact Hne|]. eapply first_rule_matched; eauto.
Qed.

(** One round as a relation, used to reason about the loop. *)
Lemma lex_loop_step fuel pos line col s : s <> [] ->
  (exists ty n, 1 <= n <= length s /\ longest_match s ty (firstn n s) /\
    lex_loop (S fuel) pos line col s =
      (let t := mkTok ty (firstn n s) pos (pos + Z.of_nat n - 1) line col in
       match ty with Space => LxSkip t | _ => LxTok t end)
      :: (let lc := advance_pos line col (firstn n s) in
          lex_loop fuel (pos + Z.of_nat n) (fst lc) (snd lc) (skipn n s)))
  \/ (exists n, n <= length s /\ no_match s /\
      (n = length s \/ forall w, ~ matched (firstn (S n) s ++ w)) /\
      lex_loop (S fuel) pos line col s =
      LxErr pos line col (firstn (S n) s)
      :: (let lc := advance_pos line col (firstn (S n) s) in
          lex_loop fuel (pos + zlen (firstn (S n) s)) (fst lc) (snd lc) (skipn (S n) s))).
Proof.
  intros Hs. destruct (exec_longest s Hs) as [(ty & n & Hf & Hn & Hl) | (Hf & Hn)].
  - left. exists ty, n. split; [exact Hn|]. split; [exact Hl|].
    destruct s as [|c s]; [congruence|]. cbn [lex_loop].
    destruct (exec_atn lex_rules (c :: s) 0 None) as [r m]. cbn [fst] in Hf. subst r. reflexivity.
  - right. destruct (exec_atn_read s lex_rules 0 None) as (k & Hk & Hle & Hd).
    exists k. split; [exact Hle|]. split; [exact Hn|]. split.
    { destruct Hd as [Hd|Hd]; [left; exact Hd|right]. intros w. apply first_type_none. apply Hd. }
    destruct s as [|c s]; [congruence|]. cbn [lex_loop].
    destruct (exec_atn lex_rules (c :: s) 0 None) as [r m]. cbn [fst snd] in Hf, Hk. subst r m. reflexivity.
Qed.

Lemma lx_text_choice ty t : lx_text (match ty with Space => LxSkip t | _ => LxTok t end) = t_text t.
Proof. destruct ty; reflexivity. Qed.
Lemma lx_start_choice ty t : lx_start (match ty with Space => LxSkip t | _ => LxTok t end) = t_start t.
Proof. destruct ty; reflexivity. Qed.

Lemma lex_loop_nil fuel pos line col : lex_loop fuel pos line col [] = [].
Proof. destruct fuel; reflexivity. Qed.

Lemma lex_loop_tiles fuel : forall pos line col s, length s <= fuel ->
  tiles pos s (lex_loop fuel pos line col s).
Proof.
  induction fuel as [|fuel IH]; intros pos line col s Hlen.
  - destruct s; [reflexivity|cbn in Hlen; lia].
  - destruct (list_eq_dec N.eq_dec s []) as [->|Hs]; [reflexivity|].
    destruct (lex_loop_step fuel pos line col s Hs)
      as [(ty & n & Hn & Hl & ->) | (n & Hn & Hno & Hd & ->)]; cbn [tiles].
    + cbv zeta. rewrite lx_text_choice, lx_start_choice. cbn [t_start t_text].
      split; [reflexivity|]. split; [apply Hl|].
      exists (skipn n s). split; [symmetry; apply firstn_skipn|].
      replace (zlen (firstn n s)) with (Z.of_nat n)
        by (unfold zlen; rewrite firstn_length_le by lia; reflexivity).
      apply IH. rewrite skipn_length. lia.
    + cbv zeta. cbn [lx_text lx_start]. split; [reflexivity|]. split; [destruct s; [congruence|discriminate]|].
      exists (skipn (S n) s). split; [symmetry; apply firstn_skipn|].
      apply IH. rewrite skipn_length. lia.
Qed.

(** The result does not depend on surplus fuel. *)
Lemma lex_loop_fuel fuel : forall fuel' pos line col s, length s <= fuel -> length s <= fuel' ->
  lex_loop fuel pos line col s = lex_loop fuel' pos line col s.
Proof.
  induction fuel as [|fuel IH]; intros fuel' pos line col s H1 H2.
  - destruct s; [|cbn in H1; lia]. rewrite !lex_loop_nil. reflexivity.
  - destruct fuel' as [|fuel']; [destruct s; [rewrite !lex_loop_nil; reflexivity|cbn in H2; lia]|].
    destruct (list_eq_dec N.eq_dec s []) as [->|Hs]; [reflexivity|].
    cbn [lex_loop]. destruct s as [|c s]; [congruence|].
    assert (Hn : forall n, 1 <= n -> length (skipn n (c :: s)) <= fuel /\ length (skipn n (c :: s)) <= fuel').
    { intros n Hn. rewrite skipn_length. cbn [length] in *. lia. }
    destruct (exec_longest (c :: s)) as [(ty & n & Hf & Hk & Hl) | (Hf & Hno)]; [discriminate| |];
      destruct (exec_atn lex_rules (c :: s) 0 None) as [r m]; cbn [fst] in Hf; subst r.
    + f_equal. apply IH; apply Hn; lia.
    + f_equal. apply IH; apply Hn; lia.
Qed.
