(** White space at lexeme boundaries does not change the token sequence;
    quoted texts are single tokens. *)
From Coq Require Import String.
From Verif Require Import Base Regex RegexFacts LexRules Lexer LexSpec LexFacts LitSpec LexRuleFacts LexThms.
From Coq Require Import ZifyBool ZifyN.

(** Type and text of the tokens among lexemes. *)
Definition sig (t : token) : ttype * pystr := (t_type t, t_text t).
Definition lx_sigs (ls : list lexeme) : list (ttype * pystr) := map sig (lx_tokens ls).
Definition has_error (ls : list lexeme) : bool :=
  existsb (fun l => match l with LxErr _ _ _ _ => true | _ => false end) ls.

Lemma has_error_lx_errors ls : has_error ls = false <-> lx_errors ls = [].
Proof.
  unfold lx_errors. induction ls as [|[t|t|s l c x] ls IH]; cbn [has_error existsb flat_map app]; try exact IH.
  - cbn. tauto.
  - cbn. split; discriminate.
Qed.

Lemma lx_sigs_cons_mk ty w pos line col ls :
  lx_sigs (mk_lexeme ty w pos line col :: ls)
  = (if ttype_eqb ty Space then [] else [(ty, w)]) ++ lx_sigs ls.
Proof. destruct ty; reflexivity. Qed.
Lemma has_error_mk ty w pos line col ls :
  has_error (mk_lexeme ty w pos line col :: ls) = has_error ls.
Proof. destruct ty; reflexivity. Qed.

(** How far a failed match reads. *)
Definition read_len (s : pystr) : nat := snd (exec_atn lex_rules s 0 None).

Lemma exec_local : forall s y rs n prev k, snd (exec_atn rs s n prev) = n + k -> k < List.length s ->
  exec_atn rs (firstn (S k) s ++ y) n prev = exec_atn rs s n prev.
Proof.
  induction s as [|c s IH]; intros y rs n prev k Hk Hlt; [cbn in Hlt; lia|].
  cbn [firstn app exec_atn] in *. destruct (advance c rs) as [|p rs'] eqn:Ha; [reflexivity|].
  set (rs1 := p :: rs') in *. set (pr := match accepting rs1 with Some ty => Some (ty, S n) | None => prev end) in *.
  destruct k as [|k].
  - exfalso. destruct (exec_atn_read s rs1 (S n) pr) as (j & Hj & _). lia.
  - cbn [List.length] in Hlt. apply (IH y rs1 (S n) pr k); lia.
Qed.

Lemma exec_alive : forall s y rs n prev, snd (exec_atn rs s n prev) = n + List.length s ->
  n + List.length s <= snd (exec_atn rs (s ++ y) n prev).
Proof.
  induction s as [|c s IH]; intros y rs n prev Hk.
  - cbn [app List.length]. destruct (exec_atn_read y rs n prev) as (j & -> & _). lia.
  - cbn [app exec_atn List.length] in *. destruct (advance c rs) as [|p rs'] eqn:Ha; [cbn in *; lia|].
    rewrite Nat.add_succ_r in *. change (S (n + List.length s)) with (S n + List.length s) in *. apply IH. exact Hk.
Qed.

Lemma lexf_err s pos line col : s <> [] -> no_match s ->
  lexf pos line col s = LxErr pos line col (firstn (S (read_len s)) s)
   :: (let bad := firstn (S (read_len s)) s in
       let lc := advance_pos line col bad in
       lexf (pos + zlen bad) (fst lc) (snd lc) (skipn (S (read_len s)) s)).
Proof.
  intros Hs Hno. unfold lexf at 1, read_len.
  destruct s as [|c s]; [congruence|]. cbn [List.length lex_loop].
  destruct (exec_longest (c :: s) Hs) as [(ty & n & _ & _ & Hl)|(Hf & _)]; [exfalso; eapply no_match_longest; eauto|].
  destruct (exec_atn lex_rules (c :: s) 0 None) as [r k]. cbn [fst snd] in *. subst r.
  cbv zeta. f_equal. apply lexf_eq. rewrite skipn_length. cbn [List.length]. lia.
Qed.

(** Positions do not influence what is recognised. *)
Lemma lexf_positions : forall s pos line col pos' line' col',
  lx_sigs (lexf pos line col s) = lx_sigs (lexf pos' line' col' s) /\
  has_error (lexf pos line col s) = has_error (lexf pos' line' col' s) /\
  map lx_text (lexf pos line col s) = map lx_text (lexf pos' line' col' s).
Proof.
  induction s as [s IH] using text_ind. intros.
  destruct (list_eq_dec N.eq_dec s []) as [->|Hs]; [repeat split; reflexivity|].
  destruct (exec_longest s Hs) as [(ty & n & _ & Hn & Hl)|(_ & Hno)].
  - set (w := firstn n s) in *. set (rest := skipn n s).
    assert (Hsw : s = w ++ rest) by (symmetry; apply firstn_skipn). rewrite Hsw in Hl |- *.
    rewrite (lexf_token ty w rest pos' line' col' Hl), (lexf_token ty w rest pos line col Hl). cbv zeta.
    rewrite !lx_sigs_cons_mk, !has_error_mk. cbn [map]. rewrite !mk_lexeme_text.
    assert (Hr : List.length rest < List.length s) by (rewrite Hsw; apply app_shorter; apply Hl).
    destruct (IH rest Hr (pos + zlen w)%Z (fst (advance_pos line col w)) (snd (advance_pos line col w))
      (pos' + zlen w)%Z (fst (advance_pos line' col' w)) (snd (advance_pos line' col' w))) as (-> & -> & ->). auto.
  - rewrite (lexf_err s pos line col Hs Hno), (lexf_err s pos' line' col' Hs Hno). cbv zeta.
    set (bad := firstn (S (read_len s)) s).
    assert (Hr : List.length (skipn (S (read_len s)) s) < List.length s).
    { rewrite skipn_length. destruct s; [congruence|]. cbn [List.length]. lia. }
    destruct (IH _ Hr (pos + zlen bad)%Z (fst (advance_pos line col bad)) (snd (advance_pos line col bad))
      (pos' + zlen bad)%Z (fst (advance_pos line' col' bad)) (snd (advance_pos line' col' bad))) as (H & _ & H').
    cbn [map lx_text]. rewrite H'. split; [exact H|]. split; reflexivity.
Qed.

(** A white space character is a lexeme on its own. *)
Lemma ws_longest c s : is_ws c -> longest_match ([c] ++ s) Space [c].
Proof.
  intros Hc. split; [discriminate|]. split; [exists s; reflexivity|]. split.
  - assert (Hm : matched [c]).
    { exists Space, (set ws_chars). split; [cbn; tauto|]. apply lang_set. exists c. split; [reflexivity|].
      apply in_ws. exact Hc. }
    destruct (matched_first _ Hm) as (ty & Hf). pose proof (first_rule_in _ _ Hf) as (r & Hin & Hr).
    destruct (rule_cases _ _ Hin) as [Hp|[[_ ->]|[-> _]]].
    + exfalso. apply (plain_rule_chars _ _ _ Hp) in Hr. inversion Hr; subst. auto using ws_bad.
    + exfalso. apply lang_QUOTED, literal_length in Hr. cbn in Hr. lia.
    + exact Hf.
  - intros w' rest' Heq Hlt Hm. destruct w' as [|x w']; [cbn in Hlt; lia|]. cbn in Heq. injection Heq as <- Heq.
    destruct (matched_ws [] c w' Hc Hm) as [[_ ->]|Hl]; [cbn in Hlt; lia|].
    cbn [app] in Hl. destruct (literal_first _ Hl) as (q & x & Hq & Hqq). injection Hq as -> _. eapply ws_not_quote; eauto.
Qed.

Lemma lexf_ws : forall w s pos line col, Forall is_ws w ->
  lx_sigs (lexf pos line col (w ++ s)) = lx_sigs (lexf pos line col s) /\
  has_error (lexf pos line col (w ++ s)) = has_error (lexf pos line col s).
Proof.
  induction w as [|c w IH]; intros s pos line col Hw; [auto|]. inversion Hw; subst.
  change ((c :: w) ++ s) with ([c] ++ (w ++ s)).
  rewrite (lexf_token Space [c] (w ++ s) pos line col) by (apply ws_longest; assumption). cbv zeta.
  rewrite lx_sigs_cons_mk, has_error_mk. cbn [ttype_eqb]. 
  destruct (IH s (pos + zlen [c])%Z (fst (advance_pos line col [c])) (snd (advance_pos line col [c])) H2) as [-> ->].
  destruct (lexf_positions s (pos + zlen [c]) (fst (advance_pos line col [c])) (snd (advance_pos line col [c])) pos line col)
    as (-> & -> & _). auto.
Qed.

Lemma lexf_ws_only w pos line col : Forall is_ws w -> lx_sigs (lexf pos line col w) = [] /\ has_error (lexf pos line col w) = false.
Proof. intros H. destruct (lexf_ws w [] pos line col H) as [H1 H2]. rewrite app_nil_r in *. auto. Qed.

(** Inserting white space at a lexeme boundary. *)
Lemma lexf_insert_ws w (Hw : Forall is_ws w) : forall l1 a b l2 pos line col,
  lexf pos line col (a ++ b) = l1 ++ l2 -> a = concat (map lx_text l1) ->
  lx_sigs (lexf pos line col (a ++ w ++ b)) = lx_sigs (lexf pos line col (a ++ b)) /\
  has_error (lexf pos line col (a ++ w ++ b)) = has_error (lexf pos line col (a ++ b)).
Proof.
  induction l1 as [|l l1 IH]; intros a b l2 pos line col Heq Ha.
  { cbn in Ha. subst a. cbn [app]. apply lexf_ws. exact Hw. }
  destruct (list_eq_dec N.eq_dec w []) as [->|Hwne]; [auto|].
  assert (Hne : a ++ b <> []).
  { intros H. rewrite H, lexf_nil in Heq. discriminate. }
  destruct (exec_longest (a ++ b) Hne) as [(ty & n & _ & Hn & Hl)|(_ & Hno)].
  - set (x := firstn n (a ++ b)) in *. set (rest := skipn n (a ++ b)).
    assert (Hsw : a ++ b = x ++ rest) by (symmetry; apply firstn_skipn).
    clearbody x rest. rewrite Hsw in Hl. rewrite Hsw, (lexf_token ty x rest pos line col Hl) in Heq. cbn [app] in Heq.
    injection Heq as Hl1 Heq. cbn [map concat] in Ha. rewrite <- Hl1, mk_lexeme_text in Ha.
    set (a' := concat (map lx_text l1)) in *. subst a. rewrite <- app_assoc in Hsw. apply app_inv_head in Hsw. rewrite <- Hsw in *.
    rewrite <- !app_assoc.
    assert (Hl' : longest_match (x ++ a' ++ w ++ b) ty x).
    { destruct Hl as (Hx & _ & Hf & Hmax). split; [exact Hx|]. split; [eexists; reflexivity|]. split; [exact Hf|].
      intros w' rest' Hw' Hlt Hm.
      destruct (le_lt_dec (List.length w') (List.length (x ++ a'))) as [Hle|Hgt].
      - apply (Hmax w' (skipn (List.length w') (x ++ a') ++ b)); [|exact Hlt|exact Hm].
        rewrite app_assoc in Hw' |- *. rewrite (app_assoc w'). f_equal.
        assert (Hp : w' = firstn (List.length w') (x ++ a')).
        { apply prefix_firstn in Hw'. rewrite firstn_app in Hw'.
          replace (List.length w' - List.length (x ++ a')) with 0 in Hw' by lia.
          cbn [firstn] in Hw'. rewrite app_nil_r in Hw'. exact Hw'. }
        rewrite Hp at 1. rewrite firstn_skipn. reflexivity.
      - assert (Hp := prefix_firstn _ _ _ Hw'). rewrite app_assoc in Hp. rewrite firstn_app in Hp.
        rewrite firstn_all2 in Hp by lia.
        destruct w as [|c w]; [congruence|]. inversion Hw; subst.
        destruct (List.length w' - List.length (x ++ a')) as [|k] eqn:Hk; [lia|]. cbn [app firstn] in Hp.
        rewrite <- app_assoc in Hp. rewrite Hp in Hm. revert Hm. apply no_match_across; auto.
        eapply first_rule_matched; eauto. }
    rewrite (lexf_token ty x (a' ++ b) pos line col Hl).
    rewrite (lexf_token ty x (a' ++ w ++ b) pos line col Hl'). cbv zeta.
    rewrite !lx_sigs_cons_mk, !has_error_mk.
    destruct (IH a' b l2 _ _ _ Heq eq_refl) as [-> ->]. auto.
  - set (s := a ++ b) in *. set (k := read_len s).
    pose proof (lexf_err s pos line col Hne Hno) as He. fold k in He. cbv zeta in He.
    rewrite He in Heq. cbn [app] in Heq. injection Heq as Hl1 Heq.
    cbn [map concat] in Ha. rewrite <- Hl1 in Ha. cbn [lx_text] in Ha.
    set (bad := firstn (S k) s) in *. set (a' := concat (map lx_text l1)) in *.
    assert (Hs : s = bad ++ skipn (S k) s) by (symmetry; apply firstn_skipn).
    assert (Hrest : skipn (S k) s = a' ++ b).
    { unfold s in Hs at 1. rewrite Ha, <- app_assoc in Hs. apply app_inv_head in Hs. symmetry. exact Hs. }
    destruct (exec_atn_read s lex_rules 0 None) as (j & Hj & Hle & Hd). rewrite Nat.add_0_l in Hj.
    change (snd (exec_atn lex_rules s 0 None)) with k in Hj. subst j.
    destruct (Nat.eq_dec k (List.length s)) as [Hk|Hk].
    + (* the error runs to the end of the input *)
      assert (Hbs : bad = s) by (unfold bad; apply firstn_all2; lia).
      assert (Hab : a' ++ b = []) by (rewrite <- Hrest; apply skipn_all2; lia).
      apply app_eq_nil in Hab. destruct Hab as [Ha' ->]. rewrite Ha', app_nil_r in Ha. rewrite app_nil_r.
      assert (Hsa : s = a) by (unfold s; apply app_nil_r). 
      assert (Hno' : no_match (a ++ w)).
      { intros x rest Hx Hxne Hm.
        destruct (le_lt_dec (List.length x) (List.length a)) as [Hle'|Hgt].
        - apply (Hno x (skipn (List.length x) a)); [|exact Hxne|exact Hm]. rewrite Hsa.
          assert (Hp := prefix_firstn _ _ _ Hx). rewrite firstn_app in Hp.
          replace (List.length x - List.length a) with 0 in Hp by lia. cbn [firstn] in Hp. rewrite app_nil_r in Hp.
          rewrite Hp at 1. symmetry. apply firstn_skipn.
        - assert (Hp := prefix_firstn _ _ _ Hx). rewrite firstn_app, firstn_all2 in Hp by lia.
          set (y := firstn (List.length x - List.length a) w) in Hp.
          assert (Hy : Forall is_ws y).
          { apply Forall_forall. intros c Hc. rewrite Forall_forall in Hw. apply Hw.
            unfold y in Hc. rewrite <- (firstn_skipn (List.length x - List.length a) w). apply in_or_app. left. exact Hc. }
          assert (Hyne : y <> []).
          { unfold y. destruct w; [congruence|]. destruct (List.length x - List.length a) eqn:E; [lia|discriminate]. }
          destruct (exists_last Hyne) as (y0 & c & Hy0). rewrite Hy0 in *. apply Forall_app in Hy. destruct Hy as [_ Hc].
          apply Forall_inv in Hc. rename Hc into H1. rewrite app_assoc in Hp. rewrite Hp in Hm.
          destruct (matched_ws _ _ _ H1 Hm) as [[Hz _]|Hlit].
          + apply app_eq_nil in Hz. destruct Hz as [Hz _]. apply Hne. rewrite Hsa. exact Hz.
          + destruct (literal_last _ Hlit) as (cq & w' & Hcq & Hq). apply app_inj_tail in Hcq. destruct Hcq as [_ Hcq].
            subst cq. eapply ws_not_quote; eauto. }
      assert (Hane : a ++ w <> []) by (destruct a; [|discriminate]; exfalso; apply Hne; rewrite Hsa; reflexivity).
      rewrite (lexf_err (a ++ w) pos line col Hane Hno'). cbv zeta.
      change (lx_sigs (LxErr ?p ?x ?y ?z :: ?r)) with (lx_sigs r). change (has_error (LxErr ?p ?x ?y ?z :: ?r)) with true.
      pose proof (exec_alive s w lex_rules 0 None) as Hal. cbn [plus] in Hal. rewrite Nat.add_0_l in Hal.
      specialize (Hal Hk). rewrite Hsa in Hal. change (snd (exec_atn lex_rules (a ++ w) 0 None)) with (read_len (a ++ w)) in Hal.
      set (m := read_len (a ++ w)) in *.
      assert (Hsk : Forall is_ws (skipn (S m) (a ++ w))).
      { rewrite skipn_app, skipn_all2 by lia. cbn [app]. apply Forall_forall. intros c Hc. rewrite Forall_forall in Hw. apply Hw.
        rewrite <- (firstn_skipn (S m - List.length a) w). apply in_or_app. right. exact Hc. }
      split.
      * destruct (lexf_ws_only _ (pos + zlen (firstn (S m) (a ++ w))) (fst (advance_pos line col (firstn (S m) (a ++ w))))
          (snd (advance_pos line col (firstn (S m) (a ++ w)))) Hsk) as [-> _].
        rewrite He. change (lx_sigs (LxErr ?p ?x ?y ?z :: ?r)) with (lx_sigs r).
        rewrite Hrest, Ha'. reflexivity.
      * rewrite He. reflexivity.
    + (* the error ends where every rule is dead *)
      assert (Hlt : k < List.length s) by lia.
      assert (Hs' : a ++ w ++ b = bad ++ (a' ++ w ++ b)) by (rewrite Ha, <- app_assoc; reflexivity).
      assert (Hread : exec_atn lex_rules (a ++ w ++ b) 0 None = exec_atn lex_rules s 0 None).
      { rewrite Hs'. apply (exec_local s _ lex_rules 0 None k); [reflexivity|exact Hlt]. }
      assert (Hblen : List.length bad = S k) by (unfold bad; rewrite firstn_length_le by lia; reflexivity).
      assert (Hne' : a ++ w ++ b <> []).
      { rewrite Hs'. intros H. apply app_eq_nil in H. destruct H as [H _]. rewrite H in Hblen. discriminate. }
      assert (Hno' : no_match (a ++ w ++ b)).
      { destruct (exec_longest (a ++ w ++ b) Hne') as [(ty & n & Hf & _)|(_ & H)]; [|exact H].
        rewrite Hread in Hf. destruct (exec_longest s Hne) as [(ty' & n' & _ & _ & Hl')|(Hf' & _)].
        - exfalso. eapply no_match_longest; eauto.
        - congruence. }
      assert (Hk' : read_len (a ++ w ++ b) = k) by (unfold read_len; rewrite Hread; reflexivity).
      rewrite (lexf_err _ pos line col Hne' Hno'), Hk'. cbv zeta.
      assert (Hf1 : firstn (S k) (a ++ w ++ b) = bad) by (rewrite Hs', <- Hblen; apply firstn_app_len).
      assert (Hf2 : skipn (S k) (a ++ w ++ b) = a' ++ w ++ b) by (rewrite Hs', <- Hblen; apply skipn_app_len).
      rewrite Hf1, Hf2, He. rewrite Hrest in *.
      change (lx_sigs (LxErr ?p ?x ?y ?z :: ?r)) with (lx_sigs r). change (has_error (LxErr ?p ?x ?y ?z :: ?r)) with true.
      assert (Heq' : lexf (pos + zlen bad) (fst (advance_pos line col bad)) (snd (advance_pos line col bad)) (a' ++ b) = l1 ++ l2).
      { rewrite <- Hrest. exact Heq. }
      destruct (IH a' b l2 _ _ _ Heq' eq_refl) as [-> _]. auto.
Qed.

(** A token boundary of a query: the end of some initial part of its lexemes. *)
Definition token_boundary (q : pystr) (n : nat) : Prop :=
  exists l1 l2, lexemes q = l1 ++ l2 /\ List.length (concat (map lx_text l1)) = n.

Lemma boundary_split q n : token_boundary q n ->
  exists l1 l2, lexemes q = l1 ++ l2 /\ firstn n q = concat (map lx_text l1).
Proof.
  intros (l1 & l2 & Hl & Hn). exists l1, l2. split; [exact Hl|].
  assert (Hq : q = concat (map lx_text l1) ++ concat (map lx_text l2)).
  { rewrite <- (tiles_concat _ _ _ (lexemes_tiles q)) at 1. rewrite Hl, map_app, concat_app. reflexivity. }
  rewrite Hq, <- Hn. apply firstn_app_len.
Qed.

Definition same_tokens (q q' : pystr) : Prop :=
  map sig (tokens q) = map sig (tokens q') /\ (lex_errors q = [] <-> lex_errors q' = []).

Lemma insert_ws_tokens q n w : token_boundary q n -> Forall is_ws w ->
  same_tokens (firstn n q ++ w ++ skipn n q) q.
Proof.
  intros Hb Hw. destruct (boundary_split _ _ Hb) as (l1 & l2 & Hl & Hf).
  assert (H := lexf_insert_ws w Hw l1 (firstn n q) (skipn n q) l2 0 1 0).
  rewrite firstn_skipn in H. specialize (H Hl Hf). destruct H as [H1 H2].
  split.
  - unfold tokens. rewrite !map_app. f_equal. exact H1.
  - unfold lex_errors. rewrite <- !has_error_lx_errors. rewrite !lexemes_lexf, H2. reflexivity.
Qed.

(** ** Quoting *)
Lemma quote_text_lit q s : (q = 34 \/ q = 39)%N -> quote_text q s = lit_text q (map (quote_elem q) s).
Proof.
  intros _. unfold quote_text, lit_text. f_equal. f_equal.
  induction s as [|c s IH]; [reflexivity|]. cbn [flat_map map].
  rewrite IH. unfold quote_elem at 2. destruct (N.eqb c 92 || N.eqb c q); reflexivity.
Qed.

Lemma quote_elems_ok q s : (q = 34 \/ q = 39)%N -> is_pystr s -> Forall (elem_ok q) (map (quote_elem q) s).
Proof.
  intros Hq Hs. induction Hs as [|c s Hc _ IH]; cbn [map]; constructor; [|exact IH].
  unfold quote_elem. destruct (N.eqb_spec c 92) as [->|H1]; cbn [orb].
  - cbn. auto.
  - destruct (N.eqb_spec c q) as [->|H2]; cbn [elem_ok]; [|auto].
    destruct Hq as [->| ->]; cbn; auto 20.
Qed.

Lemma quote_elems_value q s : (q = 34 \/ q = 39)%N -> lit_value (map (quote_elem q) s) = Some s.
Proof.
  intros Hq. induction s as [|c s IH]; [reflexivity|]. cbn [map lit_value]. rewrite IH.
  unfold quote_elem. destruct (N.eqb_spec c 92) as [->|H1]; cbn [orb]; [reflexivity|].
  destruct (N.eqb_spec c q) as [->|H2]; [|reflexivity].
  destruct Hq as [->| ->]; reflexivity.
Qed.

Lemma literal_longest w rest : is_literal w -> longest_match (w ++ rest) REGEXP w.
Proof.
  intros Hw. split; [destruct (literal_first _ Hw) as (c & w' & -> & _); discriminate|].
  split; [eexists; reflexivity|]. split; [apply literal_type; exact Hw|].
  intros w' rest' Heq Hlt Hm.
  assert (Hp := prefix_firstn _ _ _ Heq). rewrite firstn_app, firstn_all2 in Hp by lia.
  destruct (literal_first _ Hw) as (c & w1 & Hc & Hq). rewrite Hp, Hc in Hm. cbn [app] in Hm.
  apply (matched_quote _ _ Hq) in Hm. change (c :: w1 ++ ?y) with ((c :: w1) ++ y) in Hm. rewrite <- Hc in Hm.
  apply (literal_prefix_free _ _ Hw) in Hm. rewrite Hm, app_nil_r in Hp. subst w'. lia.
Qed.

Lemma lexemes_literal w : is_literal w -> lexemes w = [LxTok (mkTok REGEXP w 0 (zlen w - 1) 1 0)].
Proof.
  intros Hw. rewrite lexemes_lexf. rewrite <- (app_nil_r w) at 1.
  rewrite (lexf_token REGEXP w [] 0 1 0 (literal_longest w [] Hw)). reflexivity.
Qed.
