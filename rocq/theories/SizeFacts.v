(** Sizes of results and of parse trees. *)
From Coq Require Import String.
From Verif Require Import Base Regex LexRules Lexer Grammar Antlr Ast Builder Parser LexSpec LitSpec LexThms LexFacts
  GramSpec GramFacts ValueSpec ValueFacts SpellSpec BuilderFacts BuilderRules ParseSpec ParseFacts EvFacts TreeSpec TreeFacts SimFacts SizeSpec.
Local Open Scope nat_scope.

(** ** Results *)
Section Size.
  Variables (E : penv) (C : pcfg).
  Notation len := (@List.length token).
  Definition ql (ns : list qnode) : nat := list_sum (map qsize ns).
  Lemma ql_cons n ns : ql (n :: ns) = qsize n + ql ns.
  Proof. reflexivity. Qed.
  Lemma qsize_eq p l ch : qsize (QN p l ch) = S (ql ch).
  Proof. reflexivity. Qed.
  Lemma quantified_len tq mn mx : quantified tq mn mx -> len tq <= 5.
  Proof. intros H. destruct H; cbn; lia. Qed.
  Lemma regex_len tr v fl : sp_regex E C tr v fl -> 1 <= len tr <= 3.
  Proof. intros H. destruct H; cbn; lia. Qed.
  Lemma attr_len ta q i : sp_attr ta q i -> 1 <= len ta <= 3.
  Proof. intros H. destruct H; cbn; lia. Qed.
  Ltac lens := repeat (rewrite ?app_length in *; cbn [List.length] in *); repeat (rewrite qsize_eq in * || rewrite ql_cons in *).
  Lemma expr_size : (forall ts n, sp_expr E C ts n -> qsize n + 2 <= len ts /\ len ts + 1 <= 8 * qsize n) /\
    (forall sep ts ns, sp_exprs E C sep ts ns -> ql ns + 3 * List.length ns <= len ts + 1 /\ len ts + 1 <= 8 * ql ns).
  Proof.
    apply sp_expr_mutind; intros.
    - pose proof (attr_len _ _ _ H). pose proof (regex_len _ _ _ H1). lens. cbn. lia.
    - lens. change (ql []) with 0. lia.
    - lens. change (ql []) with 0. lia.
    - lens. lia.
    - lens. lia.
    - lens. change (ql []) with 0. lia.
    - lens. lia.
  Qed.
  Lemma item_size :
    (forall ts n, sp_item E C ts n -> qsize n <= 2 * len ts /\ len ts + 1 <= 8 * qsize n) /\
    (forall ts ns, sp_seq E C ts ns -> ql ns <= 2 * len ts /\ len ts + 1 <= 8 * ql ns) /\
    (forall ts ns, sp_alts E C ts ns -> ql ns + List.length ns <= 2 * len ts + 2 /\ len ts + 1 <= 8 * ql ns) /\
    (forall ts n, sp_operand E C ts n -> qsize n <= 2 * len ts + 1 /\ len ts + 1 <= 8 * qsize n) /\
    (forall ts n, sp_content E C ts n -> qsize n <= 2 * len ts + 1 /\ len ts + 1 <= 8 * qsize n).
  Proof.
    apply sp_item_mutind; intros.
    - pose proof (quantified_len _ _ _ H0). pose proof (regex_len _ _ _ H). lens. change (ql []) with 0. lia.
    - pose proof (quantified_len _ _ _ H1). lens. change (ql []) with 0. lia.
    - pose proof (quantified_len _ _ _ H2). pose proof (proj1 expr_size _ _ H0). lens. change (ql []) with 0. lia.
    - pose proof (quantified_len _ _ _ H3). lens. change (ql []) with 0. lia.
    - lens. change (ql []) with 0. lia.
    - lens. lia.
    - lens. change (ql []) with 0. lia.
    - lens. lia.
    - lens. lia.
    - lens. lia.
    - lens. lia.
    - lens. lia.
  Qed.
  Lemma query_size ts n : sp_query E C ts n -> qsize n + 1 <= 2 * len ts /\ len ts <= 8 * qsize n.
  Proof.
    destruct item_size as (A & _ & _ & _ & B).
    assert (M : forall ts n, sp_main E C ts n -> qsize n <= 2 * len ts + 1 /\ len ts + 1 <= 8 * qsize n) by (intros x m H; inversion H; subst; [destruct (A _ _ H0); lia|auto]).
    intros H. inversion H; subst.
    - pose proof (M _ _ H0). lens. lia.
    - pose proof (M _ _ H0). lens. change (ql []) with 0. lia.
  Qed.
End Size.

(** ** Parse trees: five nodes per token *)
Local Open Scope Z_scope.
Section Slack.
  Variable K : Z.
  Variable slack : rule -> Z.
  (** The least of [K * tokens - nodes] over what an expression derives. *)
  Fixpoint least (e : ebnf) : option Z :=
    match e with
    | Tk _ => Some (K - 1)
    | NT r => Some (slack r)
    | Sq a b => match least a, least b with Some x, Some y => Some (x + y) | _, _ => None end
    | Al a b => match least a, least b with Some x, Some y => Some (Z.min x y) | _, _ => None end
    | Op a => match least a with Some x => Some (Z.min 0 x) | _ => None end
    | Pl a => match least a with Some x => if 0 <=? x then Some x else None | _ => None end
    | St a => match least a with Some x => if 0 <=? x then Some 0 else None | _ => None end
    end.
  Definition slack_ok (r : rule) : bool := match least (body r) with Some x => slack r <=? x - 1 | None => false end.
  Hypothesis Hok : forall r, slack_ok r = true.
  Definition pl (l : list ptree) : Z := Z.of_nat (list_sum (map psize l)).
  Lemma pl_app x y : pl (x ++ y) = pl x + pl y.
  Proof. unfold pl. rewrite map_app, list_sum_app. lia. Qed.
  Lemma derives_slack e x : derives e x -> forall m, least e = Some m -> m <= K * ntok x - pl x.
  Proof.
    induction 1 as [l t Hin|r ch Hd IH|a b x y _ IH1 _ IH2|a b x _ IH|a b x _ IH|e|e x _ IH|e x y _ IH1 _ IH2|e|e x y _ IH1 _ IH2]; cbn [least]; intros m Hm.
    - injection Hm as <-. unfold pl, ntok. cbn. lia.
    - injection Hm as <-. specialize (Hok r). unfold slack_ok in Hok. destruct (least (body r)) as [x|]; [|discriminate]. apply Z.leb_le in Hok. specialize (IH x eq_refl).
      assert (P : pl [Node r ch] = 1 + pl ch) by (unfold pl; cbn [map list_sum fold_right psize]; rewrite Nat.add_0_r, Nat2Z.inj_succ; lia).
      assert (N : ntok [Node r ch] = ntok ch) by (unfold ntok; cbn [flat_map leaves]; rewrite app_nil_r; reflexivity). rewrite P, N. lia.
    - rewrite ntok_app, pl_app. destruct (least a), (least b); try discriminate. injection Hm as <-. specialize (IH1 _ eq_refl). specialize (IH2 _ eq_refl). lia.
    - destruct (least a), (least b); try discriminate. injection Hm as <-. specialize (IH _ eq_refl). lia.
    - destruct (least a), (least b); try discriminate. injection Hm as <-. specialize (IH _ eq_refl). lia.
    - destruct (least e); [|discriminate]. injection Hm as <-. unfold pl, ntok. cbn. lia.
    - destruct (least e); [|discriminate]. injection Hm as <-. specialize (IH _ eq_refl). lia.
    - rewrite ntok_app, pl_app. cbn [least] in IH2. destruct (least e) as [z|]; [|discriminate]. destruct (0 <=? z); [|discriminate]. injection Hm as <-. specialize (IH1 _ eq_refl). specialize (IH2 _ eq_refl). lia.
    - destruct (least e) as [z|]; [|discriminate]. destruct (0 <=? z); [|discriminate]. injection Hm as <-. unfold pl, ntok. cbn. lia.
    - rewrite ntok_app, pl_app. cbn [least] in IH2. destruct (least e) as [z|]; [|discriminate]. destruct (Z.leb_spec 0 z); [|discriminate]. injection Hm as <-. specialize (IH1 _ eq_refl). specialize (IH2 _ eq_refl). lia.
  Qed.
End Slack.
Definition slack5 (r : rule) : Z :=
  match r with
  | query => 1 | main_query => -2 | query_disjunction => 1 | query_sequence => -1 | query_simple => 0 | query_implicit => 1 | regexp => 2
  | regexp_pattern | regexp_flag | identifier | qualifier | within_part_simple | quantifier | query_group => 3
  | within_part => 2 | attribute => 2 | expression => 5 | query_segment => 7 | _ => 6
  end.
Lemma slack5_ok r : slack_ok 5 slack5 r = true.
Proof. destruct r; vm_compute; reflexivity. Qed.
Lemma tree_size t : parse_tree query t -> Z.of_nat (psize t) + 1 <= 5 * Z.of_nat (List.length (leaves t)).
Proof.
  intros H. pose proof (derives_slack 5 slack5 slack5_ok _ _ H 1 eq_refl) as X. unfold pl, ntok in X. cbn [map list_sum fold_right flat_map] in X. rewrite Nat.add_0_r, app_nil_r in X. lia.
Qed.
Lemma tree_leaves_size t : (List.length (leaves t) <= psize t)%nat.
Proof.
  induction t as [k|r ch IH] using ptree_ind'; [cbn; lia|]. cbn [leaves psize]. apply Nat.le_le_succ_r. induction IH as [|x l Hx _ IH]; [cbn; lia|]. cbn [flat_map map list_sum fold_right]. rewrite app_length. unfold list_sum in IH. lia.
Qed.
