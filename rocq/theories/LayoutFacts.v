(** Source locations under changes of layout. *)
From Coq Require Import String Sorted.
From Verif Require Import Base Regex RegexFacts LexRules Lexer Grammar Antlr Ast Builder Parser LexSpec LexFacts LexRuleFacts LexThms LexWs LitSpec ValueSpec SpellSpec
  GramSpec GramFacts SimFacts BuilderFacts BuilderRules ParseSpec ParseFacts EvFacts TreeFacts MeanSpec MeanFacts Display DisplayFacts PropsDisplay LayoutSpec.
Local Open Scope Z_scope.

Section Relocate.
  Variables (f g : Z -> Z) (E : penv) (C : pcfg).
  Definition reloc (l : sloc) : sloc := mkLoc (f (l_start l)) (g (l_stop l)).
  Definition matches (k k' : token) : Prop := t_type k = t_type k' /\ (t_type k <> EOF -> f (t_start k) = t_start k' /\ g (t_stop k + 1) = t_stop k' + 1).

  Lemma forall2_split {A B} (R : A -> B -> Prop) x : forall x' y y', List.length x = List.length x' -> Forall2 R (x ++ y) (x' ++ y') -> Forall2 R x x' /\ Forall2 R y y'.
  Proof.
    induction x as [|a x IH]; intros [|a' x'] y y' Hl H; try discriminate Hl; [auto|]. cbn [app] in H. inversion H as [|? ? ? ? H1 H2]; subst. injection Hl as Hl. destruct (IH x' y y' Hl H2). auto.
  Qed.
  Lemma forall2_rev {A B} (R : A -> B -> Prop) l l' : Forall2 R l l' -> Forall2 R (rev l) (rev l').
  Proof. induction 1 as [|a b l l' H _ IH]; [constructor|]. cbn [rev]. apply Forall2_app; [exact IH|]. constructor; [exact H|constructor]. Qed.
  Lemma ctx_locs r ch t' : derives (body r) ch -> Forall2 matches (leaves (Node r ch)) (leaves t') -> fromContext t' = option_map reloc (fromContext (Node r ch)).
  Proof.
    intros Hd HM. destruct (context_tokens r ch Hd) as (own & eof & Eo & Hne & Hno & Hq). cbn [leaves] in HM.
    assert (HF : forall l l', Forall2 matches l l' -> Forall2 (fun k k' => t_type k <> EOF /\ matches k k') (filter (fun k => negb (ttype_eqb (t_type k) EOF)) l) (filter (fun k => negb (ttype_eqb (t_type k) EOF)) l')).
    { induction 1 as [|k k' l l' Hk _ IH]; [constructor|]. cbn [filter]. destruct Hk as [Ht Hk]. rewrite <- Ht. destruct (ttype_eqb (t_type k) EOF) eqn:Ek; cbn [negb]; [exact IH|]. constructor; [|exact IH].
      split; [intros Z; rewrite Z in Ek; discriminate Ek|]. split; assumption. }
    assert (S : exists a l, flat_map leaves ch = a :: l /\ t_type a <> EOF) by (rewrite Eo; destruct own as [|a own]; [congruence|]; exists a, (own ++ eof); split; [reflexivity|apply Forall_inv in Hno; exact Hno]).
    destruct S as (a & l & El & Ha). pose proof (forall2_rev _ _ _ (HF _ _ HM)) as HR. unfold fromContext, ctx_start, ctx_stop. cbn [leaves].
    rewrite El in HM |- *. rewrite El in HR. destruct (leaves t') as [|a' l']; [inversion HM|]. inversion HM as [|? ? ? ? Hm _]; subst. cbn [hd_error].
    destruct (rev (filter (fun k => negb (ttype_eqb (t_type k) EOF)) (a :: l))) as [|b lb]; destruct (rev (filter (fun k => negb (ttype_eqb (t_type k) EOF)) (a' :: l'))) as [|b' lb']; inversion HR as [|? ? ? ? Hb _]; subst; [reflexivity|].
    cbn [hd_error option_map]. destruct Hm as [_ Hm]. destruct (Hm Ha) as [<- _]. destruct Hb as (Hb & _ & Hb'). destruct (Hb' Hb) as [_ <-]. reflexivity.
  Qed.

  Lemma node_relocate r t t' ch ch' qs qs' n n' : fromContext t' = option_map reloc (fromContext t) ->
    (find_rule within_part ch = None <-> find_rule within_part ch' = None) -> List.length ch = List.length ch' ->
    (forall l l', qs = Some l -> qs' = Some l' -> map erase l = map erase l' -> l' = map (relocate f g) l) ->
    ev_node E C r t ch qs = Some n -> ev_node E C r t' ch' qs' = Some n' -> erase n = erase n' -> n' = relocate f g n.
  Proof.
    intros HL HW Hlen HQ Hn Hn' He.
    assert (L : forall p p' l l', qs = Some l -> qs' = Some l' -> erase (QN p (fromContext t) l) = erase (QN p' (fromContext t') l') -> QN p' (fromContext t') l' = relocate f g (QN p (fromContext t) l)).
    { intros p p' l l' H H' Hx. cbn [erase] in Hx. injection Hx as <- Hx. cbn [relocate]. rewrite HL, (HQ l l' H H' Hx). reflexivity. }
    assert (N : forall p p', erase (QN p (fromContext t) []) = erase (QN p' (fromContext t') []) -> QN p' (fromContext t') [] = relocate f g (QN p (fromContext t) [])).
    { intros p p' Hx. cbn [erase map] in Hx. injection Hx as <-. cbn [relocate map]. rewrite HL. reflexivity. }
    assert (O : forall m m', qs = Some [m] -> qs' = Some [m'] -> erase m = erase m' -> m' = relocate f g m).
    { intros m m' H H' Hx. specialize (HQ _ _ H H'). cbn [map] in HQ. rewrite Hx in HQ. specialize (HQ eq_refl). injection HQ as HQ. exact HQ. }
    destruct r; cbn [ev_node] in Hn, Hn'; try discriminate Hn;
      repeat match goal with
      | H : option_map _ ?x = Some _ |- _ => destruct x eqn:?; cbn [option_map] in H; [|discriminate H]
      | H : match ?x with _ => _ end = Some _ |- _ => destruct x eqn:?; try discriminate H
      end;
      try (injection Hn as <-); try (injection Hn' as <-);
      first [ eapply L; solve [eauto] | eapply N; solve [eauto] | eapply O; solve [eauto] | exfalso; solve [destruct HW as [HW1 HW2]; first [specialize (HW1 eq_refl); discriminate HW1|specialize (HW2 eq_refl); discriminate HW2]] | idtac ].
    - exfalso. rewrite <- Hlen in *. congruence.
    - exfalso. rewrite <- Hlen in *. congruence.
  Qed.

  Definition moves1 (c : ptree) : Prop :=
    forall c' n n', shape c = shape c' -> Forall2 matches (leaves c) (leaves c') -> ev E C c = Some n -> ev E C c' = Some n' -> erase n = erase n' -> n' = relocate f g n.
  Lemma evs_moves ch : Forall moves1 ch -> forall ch' l l', map shape ch = map shape ch' -> Forall2 matches (flat_map leaves ch) (flat_map leaves ch') ->
    evs E C ch = Some l -> evs E C ch' = Some l' -> map erase l = map erase l' -> l' = map (relocate f g) l.
  Proof.
    induction 1 as [|c ch Hc _ IH]; intros ch' l l' Hs HM Hl Hl' He.
    - apply shape_nil in Hs. subst ch'. cbn [evs] in Hl, Hl'. injection Hl as <-. injection Hl' as <-. reflexivity.
    - apply shape_cons in Hs. destruct Hs as (c' & r' & -> & Hs1 & Hs2). cbn [flat_map] in HM. destruct (forall2_split _ _ _ _ _ (shape_len c c' Hs1) HM) as [M1 M2].
      destruct c as [k|r cc].
      + pose proof Hs1 as Hs0. apply shape_leaf in Hs0. destruct Hs0 as (k' & -> & _). cbn [evs] in Hl, Hl'. eapply IH; eassumption.
      + pose proof Hs1 as Hs0. apply shape_node in Hs0. destruct Hs0 as (cc' & -> & Hcc). cbn [evs] in Hl, Hl'. destruct (valueless r); [eapply IH; eassumption|].
        destruct (ev E C (Node r cc)) as [n|] eqn:En; [|discriminate Hl]. destruct (evs E C ch) as [ns|] eqn:Ens; [|discriminate Hl]. injection Hl as <-.
        destruct (ev E C (Node r cc')) as [n'|] eqn:En'; [|discriminate Hl']. destruct (evs E C r') as [ns'|] eqn:Ens'; [|discriminate Hl']. injection Hl' as <-.
        cbn [map] in He. injection He as He1 He2. cbn [map]. rewrite (Hc (Node r cc') n n' Hs1 M1 En En' He1), (IH r' ns ns' Hs2 M2 eq_refl Ens' He2). reflexivity.
  Qed.
  Lemma derives_moves e x : derives e x -> Forall moves1 x.
  Proof.
    induction 1 as [l t Hl|r ch Hd IH|a b x y _ IHa _ IHb|a b x _ IH|a b x _ IH|e|e x _ IH|e x y _ IHa _ IHb|e|e x y _ IHa _ IHb]; auto; try (apply Forall_app; auto).
    - constructor; [|constructor]. intros c' n n' _ _ Hn. discriminate Hn.
    - constructor; [|constructor]. intros c' n n' Hs HM Hn Hn' He. pose proof Hs as Hs0. apply shape_node in Hs0. destruct Hs0 as (ch' & -> & Hch). rewrite ev_eq in Hn, Hn'.
      refine (node_relocate r (Node r ch) (Node r ch') ch ch' _ _ n n' (ctx_locs r ch (Node r ch') Hd HM) _ _ _ Hn Hn' He).
      + pose proof (find_rule_shape within_part ch ch' Hch) as HF. destruct (find_rule within_part ch), (find_rule within_part ch'); try (split; congruence); cbn in HF; try contradiction; try discriminate HF; destruct HF; try discriminate.
      + rewrite <- (map_length shape ch), Hch, map_length. reflexivity.
      + intros l l' Hl Hl' Hm. cbn [leaves] in HM. exact (evs_moves ch IH ch' l l' Hch HM Hl Hl' Hm).
  Qed.
End Relocate.

(** ** Parsing *)
Lemma relocated V P q q' n f g : env_ok V -> lex_errors q' = [] ->
  says_if (fun w w' => decodable w' /\ regexp_value (e_penv V) (qp_cfg P) w = regexp_value (e_penv V) (qp_cfg P) w') (e_penv V) (tokens q) (tokens q') ->
  (forall i t t', nth_error (lx_tokens (lexemes q)) i = Some t -> nth_error (lx_tokens (lexemes q')) i = Some t' -> f (t_start t) = t_start t' /\ g (t_stop t + 1) = t_stop t' + 1) ->
  parse V P q = Ok n -> parse V P q' = Ok (relocate f g n).
Proof.
  intros HV He Hs Hfg Hp. destruct (same_meaning_if V P q q' n HV He Hs Hp) as (n' & Hp' & Hn). rewrite Hp'. f_equal.
  destruct (parse_ev V P q n HV Hp) as (t & m & Hq & Hpt & Hl & Hm & _ & ->). destruct (parse_ev V P q' n' HV Hp') as (t' & m' & Hq' & _ & Hl' & Hm' & _ & ->).
  rewrite !erase_with_locs in Hn. pose proof (same_types _ _ _ _ Hs) as Ht.
  pose proof (antlr_query_shape (tokens q)) as A. rewrite (types_blank _ _ Ht), antlr_query_shape, Hq, Hq' in A. injection A as A.
  assert (HM : Forall2 (matches f g) (leaves t) (leaves t')).
  { rewrite Hl, Hl'. unfold tokens in Ht |- *. rewrite !map_app in Ht. cbn [map] in Ht. apply app_inj_tail in Ht. destruct Ht as [Ht _]. apply Forall2_app; [|constructor; [split; [reflexivity|intros Z; exfalso; apply Z; reflexivity]|constructor]].
    revert Hfg Ht. generalize (lx_tokens (lexemes q)) (lx_tokens (lexemes q')). clear. intros l. induction l as [|a l IH]; intros [|a' l'] H Ht; try discriminate Ht; constructor.
    - cbn [map] in Ht. injection Ht as Ht _. split; [exact Ht|]. intros _. apply (H 0%nat); reflexivity.
    - cbn [map] in Ht. injection Ht as _ Ht. apply IH; [|exact Ht]. intros i x x' Hx Hx'. apply (H (S i)); assumption. }
  pose proof (derives_moves f g (e_penv V) (qp_cfg P) _ _ Hpt) as HD. apply Forall_inv in HD. specialize (HD t' m m' (eq_sym A) HM Hm Hm' (eq_sym Hn)).
  destruct (enableSourceLocations (qp_cfg P)); cbn [with_locs]; [exact HD|]. rewrite Hn. clear. induction m as [p l ch IH] using qnode_ind'. cbn [erase relocate option_map]. f_equal. rewrite map_map. clear - IH. induction IH as [|c ch Hc _ IHl]; [reflexivity|]. cbn [map]. rewrite <- Hc, <- IHl. reflexivity.
Qed.
(** Tokens with the same kinds and texts. *)
Lemma sig_says E C q q' : texts_ok E (tokens q) -> map sig (tokens q) = map sig (tokens q') -> says_if (fun w w' => decodable w' /\ regexp_value E C w = regexp_value E C w') E (tokens q) (tokens q').
Proof.
  intros Ht Hs. apply display_says; [exact Ht|]. rewrite <- !(map_map sig (fun x => (fst x, DisplaySpec.visible (snd x)))), Hs. reflexivity.
Qed.

(** ** Offsets of tokens *)
Definition offs (l : list lexeme) : list (Z * Z) := map (fun t => (t_start t, t_stop t)) (lx_tokens l).
Lemma offs_mk ty w pos line col ls : offs (mk_lexeme ty w pos line col :: ls) = (if ttype_eqb ty Space then [] else [(pos, pos + zlen w - 1)]) ++ offs ls.
Proof. destruct ty; reflexivity. Qed.
Definition shifted (k : Z) (x : Z * Z) : Z * Z := (fst x + k, snd x + k).
Lemma lexf_shift : forall s pos line col k line' col', has_error (lexf pos line col s) = false -> offs (lexf (pos + k) line' col' s) = map (shifted k) (offs (lexf pos line col s)).
Proof.
  induction s as [s IH] using text_ind. intros pos line col k line' col' Hno.
  destruct (list_eq_dec N.eq_dec s []) as [->|Hs]; [reflexivity|].
  destruct (exec_longest s Hs) as [(ty & n & _ & Hn & Hl)|(_ & Hnm)].
  - set (w := firstn n s) in *. set (rest := skipn n s).
    assert (Hsw : s = w ++ rest) by (symmetry; apply firstn_skipn). rewrite Hsw in Hl, Hno |- *.
    rewrite (lexf_token ty w rest (pos + k) line' col' Hl), (lexf_token ty w rest pos line col Hl). rewrite (lexf_token ty w rest pos line col Hl), has_error_mk in Hno.
    rewrite !offs_mk, map_app. assert (Hr : (List.length rest < List.length s)%nat) by (rewrite Hsw; apply app_shorter; apply Hl).
    f_equal; [destruct (ttype_eqb ty Space); [reflexivity|]; cbn [map]; unfold shifted; cbn [fst snd]; f_equal; f_equal; lia|].
    replace (pos + k + zlen w) with (pos + zlen w + k) by lia. exact (IH rest Hr _ _ _ k _ _ Hno).
  - exfalso. rewrite (lexf_err s pos line col Hs Hnm) in Hno. discriminate Hno.
Qed.
Lemma lexf_ws_offs : forall w s pos line col, Forall is_ws w -> has_error (lexf pos line col s) = false -> offs (lexf pos line col (w ++ s)) = map (shifted (zlen w)) (offs (lexf pos line col s)).
Proof.
  induction w as [|c w IH]; intros s pos line col Hw Hno.
  - cbn [app]. replace (zlen []) with 0 by reflexivity. rewrite <- (map_id (offs (lexf pos line col s))) at 1. apply map_ext. intros [a b]. unfold shifted. cbn [fst snd]. f_equal; lia.
  - inversion Hw; subst. change ((c :: w) ++ s) with ([c] ++ (w ++ s)). rewrite (lexf_token Space [c] (w ++ s) pos line col) by (apply ws_longest; assumption). rewrite offs_mk. cbn [ttype_eqb app].
    change (ttype_eqb Space Space) with true. cbn [app].
    assert (Hno' : has_error (lexf (pos + zlen [c]) (fst (advance_pos line col [c])) (snd (advance_pos line col [c])) s) = false).
    { destruct (lexf_positions s (pos + zlen [c]) (fst (advance_pos line col [c])) (snd (advance_pos line col [c])) pos line col) as (_ & -> & _). exact Hno. }
    rewrite (IH s _ _ _ ltac:(assumption) Hno'). rewrite (lexf_shift s pos line col (zlen [c]) _ _ Hno), map_map. apply map_ext. intros [a b]. unfold shifted, zlen. cbn [fst snd List.length]. f_equal; lia.
Qed.
Lemma longest_insert w x a' b ty : Forall is_ws w -> w <> [] -> longest_match (x ++ a' ++ b) ty x -> longest_match (x ++ a' ++ w ++ b) ty x.
Proof.
  intros Hw Hwne (Hx & _ & Hf & Hmax). split; [exact Hx|]. split; [eexists; reflexivity|]. split; [exact Hf|].
  intros w' rest' Hw' Hlt Hm.
  destruct (le_lt_dec (List.length w') (List.length (x ++ a'))) as [Hle|Hgt].
  - apply (Hmax w' (skipn (List.length w') (x ++ a') ++ b)); [|exact Hlt|exact Hm].
    rewrite app_assoc in Hw' |- *. rewrite (app_assoc w'). f_equal.
    assert (Hp : w' = firstn (List.length w') (x ++ a')).
    { apply prefix_firstn in Hw'. rewrite firstn_app in Hw'.
      replace (List.length w' - List.length (x ++ a'))%nat with 0%nat in Hw' by lia.
      cbn [firstn] in Hw'. rewrite app_nil_r in Hw'. exact Hw'. }
    rewrite Hp at 1. rewrite firstn_skipn. reflexivity.
  - assert (Hp := prefix_firstn _ _ _ Hw'). rewrite app_assoc in Hp. rewrite firstn_app in Hp.
    rewrite firstn_all2 in Hp by lia.
    destruct w as [|c w]; [congruence|]. inversion Hw; subst.
    destruct (List.length w' - List.length (x ++ a'))%nat as [|k] eqn:Hk; [lia|]. cbn [app firstn] in Hp.
    rewrite <- app_assoc in Hp. rewrite Hp in Hm. revert Hm. apply no_match_across; auto.
    eapply first_rule_matched; eauto.
Qed.
Definition moved (i k : Z) (x : Z * Z) : Z * Z := (moved_start i k (fst x), moved_stop i k (snd x + 1) - 1).
Lemma offs_from s pos line col : Forall (fun x => pos <= fst x <= snd x) (offs (lexf pos line col s)).
Proof.
  revert pos line col. induction s as [s IH] using text_ind. intros pos line col. destruct (list_eq_dec N.eq_dec s []) as [->|Hs]; [constructor|].
  destruct (exec_longest s Hs) as [(ty & n & _ & Hn & Hl)|(_ & Hnm)].
  - set (w := firstn n s) in *. set (rest := skipn n s). assert (Hsw : s = w ++ rest) by (symmetry; apply firstn_skipn). rewrite Hsw in Hl |- *.
    rewrite (lexf_token ty w rest pos line col Hl), offs_mk. assert (Hr : (List.length rest < List.length s)%nat) by (rewrite Hsw; apply app_shorter; apply Hl).
    assert (Hz : 1 <= zlen w) by (destruct Hl as (Hx & _); unfold zlen; destruct w; [congruence|cbn; lia]).
    apply Forall_app. split; [destruct (ttype_eqb ty Space); [constructor|]; constructor; [cbn; lia|constructor]|]. eapply Forall_impl; [|exact (IH rest Hr (pos + zlen w) _ _)]. intros y Hy. cbn in Hy. lia.
  - rewrite (lexf_err s pos line col Hs Hnm). set (bad := firstn (S (read_len s)) s). assert (Hr : (List.length (skipn (S (read_len s)) s) < List.length s)%nat) by (rewrite skipn_length; destruct s; [congruence|]; cbn [List.length]; lia).
    unfold offs, lx_tokens. cbn [flat_map app]. eapply Forall_impl; [|exact (IH _ Hr (pos + zlen bad) _ _)]. intros y Hy. cbn in Hy. unfold zlen in Hy. lia.
Qed.
Lemma lexf_insert_offs w (Hw : Forall is_ws w) : forall l1 a b l2 pos line col,
  lexf pos line col (a ++ b) = l1 ++ l2 -> a = concat (map lx_text l1) -> has_error (lexf pos line col (a ++ b)) = false ->
  offs (lexf pos line col (a ++ w ++ b)) = map (moved (pos + zlen a) (zlen w)) (offs (lexf pos line col (a ++ b))).
Proof.
  induction l1 as [|l l1 IH]; intros a b l2 pos line col Heq Ha Hno.
  { cbn in Ha. subst a. cbn [app] in *. rewrite (lexf_ws_offs w b pos line col Hw Hno). pose proof (offs_from b pos line col) as HF. replace (zlen []) with 0 by reflexivity. apply map_ext_in. intros [x y] Hin. rewrite Forall_forall in HF. specialize (HF _ Hin). cbn [fst snd] in HF.
    unfold shifted, moved, moved_start, moved_stop. cbn [fst snd]. destruct (Z_lt_dec x (pos + 0)); [lia|]. destruct (Z_le_dec (y + 1) (pos + 0)); [lia|]. f_equal; lia. }
  destruct (list_eq_dec N.eq_dec w []) as [->|Hwne].
  { cbn [app]. replace (zlen []) with 0 by reflexivity. rewrite <- (map_id (offs (lexf pos line col (a ++ b)))) at 1. apply map_ext. intros [x y]. unfold moved, moved_start, moved_stop. cbn [fst snd]. destruct (Z_lt_dec x (pos + zlen a)), (Z_le_dec (y + 1) (pos + zlen a)); f_equal; lia. }
  assert (Hne : a ++ b <> []). { intros H. rewrite H, lexf_nil in Heq. discriminate. }
  destruct (exec_longest (a ++ b) Hne) as [(ty & n & _ & Hn & Hl)|(_ & Hnm)]; [|exfalso; rewrite (lexf_err _ pos line col Hne Hnm) in Hno; discriminate Hno].
  set (x := firstn n (a ++ b)) in *. set (rest := skipn n (a ++ b)). assert (Hsw : a ++ b = x ++ rest) by (symmetry; apply firstn_skipn).
  clearbody x rest. rewrite Hsw in Hl. rewrite Hsw, (lexf_token ty x rest pos line col Hl) in Heq. rewrite Hsw, (lexf_token ty x rest pos line col Hl), has_error_mk in Hno. cbn [app] in Heq.
  injection Heq as Hl1 Heq. cbn [map concat] in Ha. rewrite <- Hl1, mk_lexeme_text in Ha.
  set (a' := concat (map lx_text l1)) in *. subst a. rewrite <- app_assoc in Hsw. apply app_inv_head in Hsw. rewrite <- Hsw in *. rewrite <- !app_assoc.
  pose proof (longest_insert w x a' b ty Hw Hwne Hl) as Hl'.
  rewrite (lexf_token ty x (a' ++ b) pos line col Hl), (lexf_token ty x (a' ++ w ++ b) pos line col Hl'), !offs_mk, map_app.
  cbv zeta. pose proof (IH a' b l2 _ _ _ Heq eq_refl Hno) as IH'. rewrite IH'. assert (Hz : 1 <= zlen x) by (destruct Hl as (Hx & _); unfold zlen; destruct x; [congruence|cbn; lia]). assert (Hz' : 0 <= zlen a') by (unfold zlen; lia).
  assert (Ez : zlen (x ++ a') = zlen x + zlen a') by (unfold zlen; rewrite app_length; lia). rewrite Ez, Z.add_assoc. f_equal.
  destruct (ttype_eqb ty Space); [reflexivity|]. cbn [map]. unfold moved, moved_start, moved_stop. cbn [fst snd]. destruct (Z_lt_dec pos (pos + zlen x + zlen a')); [|lia]. destruct (Z_le_dec (pos + zlen x - 1 + 1) (pos + zlen x + zlen a')); [|lia]. f_equal. f_equal. lia.
Qed.

(** ** The same tokens elsewhere *)
Lemma offs_sorted s pos line col : StronglySorted (fun x y => fst x < fst y /\ snd x < snd y) (offs (lexf pos line col s)).
Proof.
  revert pos line col. induction s as [s IH] using text_ind. intros pos line col. destruct (list_eq_dec N.eq_dec s []) as [->|Hs]; [constructor|].
  destruct (exec_longest s Hs) as [(ty & n & _ & Hn & Hl)|(_ & Hnm)].
  - set (w := firstn n s) in *. set (rest := skipn n s). assert (Hsw : s = w ++ rest) by (symmetry; apply firstn_skipn). rewrite Hsw in Hl |- *.
    rewrite (lexf_token ty w rest pos line col Hl), offs_mk. assert (Hr : (List.length rest < List.length s)%nat) by (rewrite Hsw; apply app_shorter; apply Hl).
    assert (Hz : 1 <= zlen w) by (destruct Hl as (Hx & _); unfold zlen; destruct w; [congruence|cbn; lia]).
    destruct (ttype_eqb ty Space); cbn [app]; [exact (IH rest Hr _ _ _)|]. constructor; [exact (IH rest Hr _ _ _)|]. eapply Forall_impl; [|exact (offs_from rest (pos + zlen w) _ _)]. intros y Hy. cbn in Hy |- *. lia.
  - rewrite (lexf_err s pos line col Hs Hnm). set (bad := firstn (S (read_len s)) s). assert (Hr : (List.length (skipn (S (read_len s)) s) < List.length s)%nat) by (rewrite skipn_length; destruct s; [congruence|]; cbn [List.length]; lia).
    unfold offs, lx_tokens. cbn [flat_map app]. exact (IH _ Hr _ _ _).
Qed.
Fixpoint look (l : list (Z * Z)) (x : Z) : Z := match l with [] => x | (a, b) :: r => if Z.eqb a x then b else look r x end.
Lemma look_nth l l' : StronglySorted Z.lt l -> forall i x x', nth_error l i = Some x -> nth_error l' i = Some x' -> look (combine l l') x = x'.
Proof.
  intros Hs. revert l'. induction Hs as [|a l _ IH HF]; intros l' [|i] x x' Hx Hx'; try discriminate Hx; destruct l' as [|a' l']; try discriminate Hx'; cbn [nth_error] in Hx, Hx'; cbn [combine look].
  - injection Hx as ->. injection Hx' as ->. rewrite Z.eqb_refl. reflexivity.
  - rewrite Forall_forall in HF. pose proof (HF x (nth_error_In _ _ Hx)) as Hlt. replace (a =? x) with false by (symmetry; apply Z.eqb_neq; lia). exact (IH l' i x x' Hx Hx').
Qed.
Lemma sorted_map {A B} (R : A -> A -> Prop) (S : B -> B -> Prop) (h : A -> B) l : (forall a b, R a b -> S (h a) (h b)) -> StronglySorted R l -> StronglySorted S (map h l).
Proof.
  intros H. induction 1 as [|a l _ IH HF]; cbn [map]; constructor; [exact IH|]. apply Forall_map. eapply Forall_impl; [|exact HF]. intros b. apply H.
Qed.
Lemma token_maps q q' : exists f g : Z -> Z, forall i t t', nth_error (lx_tokens (lexemes q)) i = Some t -> nth_error (lx_tokens (lexemes q')) i = Some t' ->
  f (t_start t) = t_start t' /\ g (t_stop t + 1) = t_stop t' + 1.
Proof.
  pose proof (offs_sorted q 0 1 0) as Hs. rewrite <- lexemes_lexf in Hs. unfold offs in Hs.
  exists (look (combine (map t_start (lx_tokens (lexemes q))) (map t_start (lx_tokens (lexemes q'))))), (look (combine (map (fun t => t_stop t + 1) (lx_tokens (lexemes q))) (map (fun t => t_stop t + 1) (lx_tokens (lexemes q'))))).
  intros i t t' Ht Ht'. split.
  - apply (look_nth _ _) with (i := i); [|rewrite nth_error_map, Ht; reflexivity|rewrite nth_error_map, Ht'; reflexivity].
    pose proof (sorted_map _ Z.lt fst _ (fun a b H => proj1 H) Hs) as H. rewrite map_map in H. exact H.
  - apply (look_nth _ _) with (i := i); [|rewrite nth_error_map, Ht; reflexivity|rewrite nth_error_map, Ht'; reflexivity].
    pose proof (sorted_map _ Z.lt (fun x => snd x + 1) _ (fun a b H => proj1 (Z.add_lt_mono_r _ _ 1) (proj2 H)) Hs) as H. rewrite map_map in H. exact H.
Qed.
