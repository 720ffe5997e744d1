(** Property C62: how deep results can be. *)
From Coq Require Import String.
From Verif Require Import Base Regex LexRules Lexer Grammar Antlr Ast Builder Parser ModelTests LexSpec LexThms LitSpec
  GramSpec GramFacts ValueSpec ValueFacts SpellSpec BuilderFacts BuilderRules ParseSpec ParseFacts EvFacts SimFacts LevelFacts
  TreeSpec TreeFacts LevelSpec PropsParse PropsTree PropsPrec ReadSpec ReadQuery ReadStrat PropsRead WriteSpec PropsWrite DepthSpec DepthFacts PropsContexts.

Lemma tokens_length q : (List.length (tokens q) <= List.length q + 1)%nat.
Proof.
  unfold tokens. rewrite app_length. cbn [List.length]. apply Nat.add_le_mono_r.
  assert (K : forall ls p s, tiles p s ls -> (List.length (lx_tokens ls) <= List.length s)%nat).
  { induction ls as [|l ls IH]; intros p s H; [cbn; lia|]. cbn [tiles] in H. destruct H as (_ & Hne & rest & -> & H).
    specialize (IH _ _ H). unfold lx_tokens in *. cbn [flat_map]. rewrite !app_length.
    assert (1 <= List.length (lx_text l))%nat by (destruct (lx_text l); [contradiction|cbn; lia]). destruct l; cbn [List.length app] in *; lia. }
  exact (K _ _ _ (lexemes_tiles q)).
Qed.
Lemma height_locs b n : qheight (with_locs b n) = qheight n.
Proof. destruct b; [reflexivity|apply qheight_erase]. Qed.
Lemma brackets_locs b n : brackets (with_locs b n) = brackets n.
Proof. destruct b; [reflexivity|apply brackets_erase]. Qed.
Lemma count_locs b n : count_nots (with_locs b n) = count_nots n.
Proof. destruct b; [reflexivity|apply count_erase]. Qed.

(** C62.  The depth of a result is linear in the length of the query. *)
Theorem C62_linear : forall V P q n, env_ok V -> parse V P q = Ok n ->
  (qheight n <= List.length (tokens q) + 1)%nat /\ (qheight n <= List.length q + 2)%nat.
Proof.
  intros V P q n HV Hp. destruct (parse_ev V P q n HV Hp) as (t & m & _ & _ & _ & _ & Hs & ->). rewrite height_locs.
  pose proof (query_len _ _ _ _ Hs). pose proof (tokens_length q). lia.
Qed.
(** The brackets of the query are the segments and groups of the result (a bare literal is a segment without brackets);
    the [!] are its negations. *)
Theorem C62_brackets : forall V P q n, env_ok V -> parse V P q = Ok n ->
  (nesting (tokens q) <= brackets n <= nesting (tokens q) + 1)%nat /\ count_nots n = negations (tokens q).
Proof.
  intros V P q n HV Hp. destruct (parse_ev V P q n HV Hp) as (t & m & _ & _ & _ & _ & Hs & ->). rewrite brackets_locs, count_locs.
  split; [exact (query_nest _ _ _ _ Hs)|symmetry; exact (query_count _ _ _ _ Hs)].
Qed.
(** A result of the documented shape is at most three levels deep per bracket, and one per negation. *)
Theorem C62_documented : forall V P q n, env_ok V -> parse V P q = Ok n -> qstrat n = true ->
  (qheight n <= 3 * nesting (tokens q) + negations (tokens q) + 5)%nat.
Proof.
  intros V P q n HV Hp Hq. destruct (proj2 (C56_check V P q n HV Hp) Hq) as (a & Ha & Hn).
  change (n = with_locs (enableSourceLocations (qp_cfg P)) a) in Hn. subst n. rewrite height_locs. exact (query_depth _ _ _ _ Ha).
Qed.

(** Without [!] every result has the documented shape. *)
Lemma count_sub m n : subnode m n -> (count_nots m <= count_nots n)%nat.
Proof.
  induction 1 as [|p l ch c Hc _ IH]; [lia|]. rewrite count_eq. etransitivity; [exact IH|]. clear IH.
  induction ch as [|d ch IHc]; [destruct Hc|]. cbn [map list_sum fold_right]. change (fold_right Nat.add 0%nat ?l) with (list_sum l).
  destruct Hc as [<-|Hc]; [lia|]. specialize (IHc Hc). lia.
Qed.
Lemma positive_shape n : count_nots n = 0%nat -> Forall (Forall (eq 0%nat)) (tree_shape n).
Proof.
  intros H. assert (S : forall m, subnode m n -> nots_of m = 0%nat).
  { intros m Hm. pose proof (count_sub m n Hm). assert (E : count_nots m = 0%nat) by lia. destruct m as [p l ch]. cbn [count_nots] in E. destruct p; try reflexivity. discriminate. }
  assert (In_t : forall t, In t (terms_of n) -> subnode t n).
  { intros t Ht. unfold terms_of in Ht. destruct n as [p l ch]. cbn [q_payload] in Ht. destruct p; try (destruct Ht as [<-|[]]; constructor). cbn [q_children] in Ht. econstructor; [exact Ht|constructor]. }
  unfold tree_shape. apply Forall_map, Forall_forall. intros t Ht. specialize (In_t t Ht). apply Forall_map, Forall_forall. intros f Hf. symmetry. apply S.
  unfold factors_of in Hf. destruct t as [p l ch]. cbn [q_payload] in Hf.
  destruct p; try (destruct Hf as [<-|[]]; exact In_t). cbn [q_children] in Hf. eapply subnode_trans; [|exact In_t]. econstructor; [exact Hf|constructor].
Qed.
Lemma positive_documented V P q n : env_ok V -> parse V P q = Ok n -> negations (tokens q) = 0%nat -> qstrat n = true.
Proof.
  intros HV Hp H0. destruct (proj1 (C56_accepted V P q HV) (ex_intro _ n Hp)) as (_ & (a & Ha) & _).
  apply (C56_check V P q n HV Hp). exists a. split; [exact Ha|]. apply (C56_exact V P q n a HV Hp Ha).
  intros m c Hm _ Hc i. apply positive_safe, positive_shape.
  assert (Hs : sp_query (e_penv V) (qp_cfg P) (tokens q) a) by (apply rd_query_sound; exact Ha).
  pose proof (query_count _ _ _ _ Hs) as E. pose proof (count_sub m a Hm). assert (Hcm : subnode c m) by (destruct m as [p l ch]; cbn [q_children] in Hc; subst ch; econstructor; [left; reflexivity|constructor]).
  pose proof (count_sub c m Hcm). lia.
Qed.
Theorem C62_positive : forall V P q n, env_ok V -> parse V P q = Ok n -> negations (tokens q) = 0%nat ->
  qstrat n = true /\ (qheight n <= 3 * nesting (tokens q) + 5)%nat.
Proof.
  intros V P q n HV Hp H0. pose proof (positive_documented V P q n HV Hp H0) as Hq. split; [exact Hq|].
  pose proof (C62_documented V P q n HV Hp Hq). lia.
Qed.
(** Parse trees. *)
Theorem C62_tree : forall q t, antlr_parse q = Ok t -> (pheight t <= List.length (tokens q) + 5)%nat.
Proof. intros q t H. apply antlr_tree in H. destruct H as [Hp <-]. apply query_tree_len. exact Hp. Qed.
Theorem C62_tree_result : forall V P q n t, env_ok V -> parse V P q = Ok n -> antlr_parse q = Ok t ->
  (qheight n <= pheight t <= 3 * qheight n + 2)%nat.
Proof.
  intros V P q n t HV Hp Ht. destruct (parse_ev V P q n HV Hp) as (t' & m & Ht' & Hpt & _ & Hev & _ & ->). rewrite height_locs.
  unfold antlr_parse in Ht. rewrite Ht' in Ht. injection Ht as <-. exact (query_fits _ _ _ _ Hpt Hev).
Qed.

(** The bounds cannot be improved to ones in the brackets or the tokens alone. *)
Definition lit : qnode := QN (PSegment 1 1) None [QN (PExpr None (u "text") EQUALS (u "x") None) None []].
Fixpoint tower (d : nat) : qnode :=
  match d with
  | O => QN (PExpr None (u "a") EQUALS (u "x") None) None []
  | S d => QN PNot None [tower d]
  end.
Definition not_tower (d : nat) : qnode := QN (PSegment 1 1) None [tower d].
Fixpoint group_tower (d : nat) : qnode :=
  match d with
  | O => lit
  | S d => QN (PQGroup 1 1) None [QN PDisjunction None [QN PSequence None [group_tower d; lit]; lit]]
  end.
Section Towers.
  Let E := e_penv some_env.
  Let C := qp_cfg default_parser.
  Definition all_ok (n : qnode) : Prop := forall m, subnode m n -> node_ok E C m.
  Lemma all_ok_node p l ch : node_ok E C (QN p l ch) -> Forall all_ok ch -> all_ok (QN p l ch).
  Proof.
    intros H F m Hm. inversion Hm as [|p' l' ch' c Hc Hs]; subst; [exact H|]. rewrite Forall_forall in F. exact (F c Hc m Hs).
  Qed.
  Lemma x_ok : regex_ok E C (u "x").
  Proof. split; [|reflexivity]. repeat constructor; vm_compute; congruence. Qed.
  Lemma letter_name c : is_letter c -> is_name [c].
  Proof. intros H. exists c, []. auto. Qed.
  Lemma a_named i : i = [97%N] -> is_name i.
  Proof. intros ->. apply letter_name. left. lia. Qed.
  Lemma tower_ok d : all_ok (tower d) /\ strat 2 (tower d) = true /\ named (tower d).
  Proof.
    induction d as [|d (IH1 & IH2 & IH3)].
    - split; [|split; [reflexivity|]].
      + apply all_ok_node; [|constructor]. split; [split; [apply x_ok|intros S H; discriminate]|intros c []].
      + split; [apply a_named; reflexivity|discriminate].
    - split; [|split; [cbn [strat forallb tower]; rewrite IH2; reflexivity|exact I]].
      apply all_ok_node; [|repeat constructor; exact IH1]. split; [reflexivity|]. intros c [<-|[]]. left. exact IH3.
  Qed.
  Lemma lit_ok : all_ok lit.
  Proof.
    apply all_ok_node.
    - split; [split; [reflexivity|left; auto]|]. intros c [<-|[]]. right. split; reflexivity.
    - constructor; [|constructor]. apply all_ok_node; [|constructor]. split; [split; [apply x_ok|intros S H; discriminate]|intros c []].
  Qed.
  Lemma group_ok d : all_ok (group_tower d) /\ ostrat 0 (group_tower d) = true /\ named (group_tower d).
  Proof.
    induction d as [|d (IH1 & IH2 & IH3)].
    - split; [exact lit_ok|]. split; [reflexivity|exact I].
    - split; [|split; [|exact I]].
      + apply all_ok_node; [split; [split; [reflexivity|left; auto]|intros c [<-|[]]; left; exact I]|]. constructor; [|constructor].
        apply all_ok_node; [split; [cbn; lia|intros c [<-|[<-|[]]]; left; exact I]|]. constructor; [|constructor; [exact lit_ok|constructor]].
        apply all_ok_node; [split; [cbn; lia|]|constructor; [exact IH1|constructor; [exact lit_ok|constructor]]].
        intros c [<-|[<-|[]]]; left; [exact IH3|exact I].
      + cbn [group_tower ostrat forallb Nat.eqb andb]. change (ostrat 0 lit) with true. change (ostrat 1 lit) with true. rewrite IH2.
        destruct (lone_segment [group_tower d; lit]) eqn:Hl; [|reflexivity].
        destruct (group_tower d) as [p l ch]. destruct p; discriminate Hl.
  Qed.
  Lemma written n : all_ok n -> qstrat n = true -> no_deviation n ->
    exists q m, parse some_env default_parser q = Ok m /\ qstrat m = true /\ qheight m = qheight n /\ brackets m = brackets n /\ count_nots m = count_nots n.
  Proof.
    intros Ho Hq Hd. destruct (proj2 (C57_roundtrip some_env default_parser n some_env_ok (conj Hq Ho)) Hd) as (m & Hm & He).
    exists (write (qp_cfg default_parser) n), m. split; [exact Hm|].
    rewrite <- (qstrat_erase m), <- (qheight_erase m), <- (brackets_erase m), <- (count_erase m), He, qstrat_erase, qheight_erase, brackets_erase, count_erase. auto.
  Qed.
End Towers.
Lemma tower_height d : qheight (tower d) = S d.
Proof. induction d as [|d IH]; [reflexivity|]. cbn [tower]. rewrite qheight_eq. cbn [map list_max fold_right]. rewrite IH. lia. Qed.
Lemma tower_brackets d : brackets (tower d) = 0%nat.
Proof. induction d as [|d IH]; [reflexivity|]. cbn [tower]. rewrite brackets_eq. cbn [map list_max fold_right]. rewrite IH. reflexivity. Qed.
Lemma tower_shape d : tree_shape (tower d) = [[d]].
Proof.
  assert (H : nots_of (tower d) = d) by (induction d as [|d IH]; [reflexivity|cbn [tower nots_of]; rewrite IH; reflexivity]).
  unfold tree_shape. destruct d; [reflexivity|]. cbn [tower terms_of factors_of q_payload map]. change (QN PNot None [tower d]) with (tower (S d)). rewrite H. reflexivity.
Qed.
Lemma tower_sub m d : subnode m (tower d) -> exists e, m = tower e.
Proof.
  induction d as [|d IH]; intros H; inversion H as [|p l ch c Hc Hs]; subst; try destruct Hc as [<-|Hc]; try destruct Hc.
  - exists 0%nat. reflexivity.
  - exists (S d). reflexivity.
  - apply IH. exact Hs.
Qed.
Lemma one_term i js : ~ deviates [js] i.
Proof. intros (H & _). cbn in H. lia. Qed.
(** Neither the brackets alone ... *)
Theorem C62_deep_flat : forall b, exists q n, parse some_env default_parser q = Ok n /\ qstrat n = true /\ (nesting (tokens q) <= 1)%nat /\ (b <= qheight n)%nat.
Proof.
  intros b. destruct (tower_ok b) as (A & B & D).
  destruct (written (not_tower b)) as (q & n & Hp & Hq & Hh & Hb & Hc).
  - apply all_ok_node; [|constructor; [exact A|constructor]]. split; [split; [reflexivity|left; auto]|]. intros c [<-|[]]. left. exact D.
  - unfold qstrat, not_tower, mstrat. cbn [ostrat Nat.leb andb orb]. destruct (tower b) as [p l ch] eqn:Et. cbn [forallb].
    pose proof (proj2 (strat_mono (tower b)) (proj1 (strat_mono (tower b)) ltac:(rewrite Et; exact B))) as S0. rewrite Et in S0. rewrite S0.
    destruct p; try reflexivity. destruct ch; reflexivity.
  - intros m c Hm Hcl Hch i. inversion Hm as [|p l ch c0 Hc0 Hs]; subst.
    + cbn in Hch. injection Hch as <-. rewrite tower_shape. apply one_term.
    + destruct Hc0 as [<-|[]]. destruct (tower_sub _ _ Hs) as (e & ->). destruct e; destruct Hcl as [H|H]; discriminate H.
  - exists q, n. split; [exact Hp|]. split; [exact Hq|]. destruct (C62_brackets _ _ _ _ some_env_ok Hp) as [[L _] _].
    rewrite Hb in L. unfold not_tower in L, Hh. rewrite brackets_eq in L. cbn [map list_max fold_right bracketed] in L. rewrite tower_brackets in L. cbn in L.
    split; [lia|]. rewrite Hh, qheight_eq. cbn [map list_max fold_right]. rewrite tower_height. lia.
Qed.
(** ... nor fewer than three levels per bracket will do. *)
Lemma group_height d : qheight (group_tower d) = (3 * d + 2)%nat.
Proof.
  induction d as [|d IH]; [reflexivity|]. cbn [group_tower]. rewrite qheight_eq. cbn [map list_max fold_right]. rewrite !qheight_eq. cbn [map list_max fold_right].
  rewrite qheight_eq. cbn [map list_max fold_right]. rewrite IH. change (qheight lit) with 2%nat. lia.
Qed.
Lemma group_brackets d : brackets (group_tower d) = S d.
Proof.
  induction d as [|d IH]; [reflexivity|]. cbn [group_tower]. rewrite !brackets_eq. cbn [map list_max fold_right bracketed]. rewrite !brackets_eq. cbn [map list_max fold_right bracketed].
  rewrite brackets_eq. cbn [map list_max fold_right bracketed]. rewrite IH. change (brackets lit) with 1%nat. lia.
Qed.
Lemma group_count d : count_nots (group_tower d) = 0%nat.
Proof.
  induction d as [|d IH]; [reflexivity|]. cbn [group_tower]. rewrite !count_eq. cbn [map list_sum fold_right]. rewrite !count_eq. cbn [map list_sum fold_right].
  rewrite count_eq. cbn [map list_sum fold_right]. rewrite IH. reflexivity.
Qed.
Theorem C62_three_per_bracket : forall d, exists q n, parse some_env default_parser q = Ok n /\ negations (tokens q) = 0%nat /\ (nesting (tokens q) <= d + 1)%nat /\
  qheight n = (3 * d + 2)%nat.
Proof.
  intros d. destruct (group_ok d) as (A & B & _).
  destruct (written (group_tower d)) as (q & n & Hp & Hq & Hh & Hb & Hc).
  - exact A.
  - unfold qstrat, mstrat. rewrite B. destruct d; reflexivity.
  - intros m c Hm Hcl Hch i. assert (Hs : subnode c (group_tower d)) by (eapply subnode_trans; [|exact Hm]; destruct m as [p l ch]; cbn in Hch; subst ch; econstructor; [left; reflexivity|constructor]).
    pose proof (count_sub _ _ Hs) as L. rewrite group_count in L. apply positive_safe, positive_shape. lia.
  - exists q, n. split; [exact Hp|]. destruct (C62_brackets _ _ _ _ some_env_ok Hp) as [[L _] K]. rewrite Hc, group_count in K. rewrite Hb, group_brackets in L. rewrite Hh, group_height.
    split; [lia|]. split; [lia|reflexivity].
Qed.

Example C62_witness : exists n t, parse some_env default_parser sample_query = Ok n /\ antlr_parse sample_query = Ok t /\
  qstrat n = true /\ (2 <= nesting (tokens sample_query))%nat.
Proof.
  destruct (parse some_env default_parser sample_query) as [n|] eqn:Hp; [|vm_compute in Hp; discriminate].
  destruct (antlr_parse sample_query) as [t|] eqn:Ht; [|vm_compute in Ht; discriminate].
  exists n, t. split; [reflexivity|]. split; [reflexivity|]. split; [|vm_compute; lia].
  assert (K : match parse some_env default_parser sample_query with Ok m => qstrat m | _ => false end = true) by (vm_compute; reflexivity).
  rewrite Hp in K. exact K.
Qed.
