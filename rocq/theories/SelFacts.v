(** More about prediction: subtrees of the selected tree, and viability inside one bracket level. *)
From Verif Require Import Base LexRules Lexer Grammar Antlr GramSpec GramFacts LevelFacts.
Local Open Scope Z_scope.

Notation types := (map t_type).

(** ** Stacks *)
Lemma viable_nil : viable [] [].
Proof. exists []. split; [constructor|reflexivity]. Qed.
Lemma viable_nil_inv w : viable [] w -> w = [].
Proof. intros (fs & Hd & Hl). inversion Hd; subst. reflexivity. Qed.
Lemma viable_one e w : viable [e] w <-> exists x, derives e x /\ ttypes x = w.
Proof.
  split.
  - intros (fs & Hd & Hl). inversion Hd as [|? ? x y Hx Hy]; subst. inversion Hy; subst. exists x. rewrite app_nil_r. auto.
  - intros (x & Hx & <-). exists (x ++ []). split; [constructor; [exact Hx|constructor]|]. rewrite app_nil_r. reflexivity.
Qed.
Lemma derives_all_app K1 x y K2 : derives_all K1 x -> derives_all K2 y -> derives_all (K1 ++ K2) (x ++ y).
Proof. induction 1; cbn; [auto|]. intros H2. rewrite <- app_assoc. constructor; auto. Qed.
Lemma derives_all_split K1 : forall K2 fs, derives_all (K1 ++ K2) fs -> exists x y, fs = x ++ y /\ derives_all K1 x /\ derives_all K2 y.
Proof.
  induction K1 as [|e K1 IH]; intros K2 fs H; cbn in H; [exists [], fs; repeat split; [constructor|exact H]|].
  inversion H as [|? ? x y Hx Hy]; subst. destruct (IH _ _ Hy) as (x' & y' & -> & H1 & H2). exists (x ++ x'), y'.
  split; [rewrite app_assoc; reflexivity|]. split; [constructor; assumption|exact H2].
Qed.
Lemma viable_app2 K1 K2 w1 w2 : viable K1 w1 -> viable K2 w2 -> viable (K1 ++ K2) (w1 ++ w2).
Proof.
  intros (x & Hx & <-) (y & Hy & <-). exists (x ++ y). split; [apply derives_all_app; assumption|]. rewrite flat_map_app, map_app. reflexivity.
Qed.
Lemma viable_split K1 K2 w : viable (K1 ++ K2) w -> exists w1 w2, w = w1 ++ w2 /\ viable K1 w1 /\ viable K2 w2.
Proof.
  intros (fs & Hd & <-). destruct (derives_all_split _ _ _ Hd) as (x & y & -> & Hx & Hy). exists (ttypes x), (ttypes y).
  split; [apply ttypes_app|]. split; [exists x; auto|exists y; auto].
Qed.
Lemma viable_cons e K w1 w2 : viable [e] w1 -> viable K w2 -> viable (e :: K) (w1 ++ w2).
Proof. apply (viable_app2 [e]). Qed.
Lemma viable_cons_inv e K w : viable (e :: K) w -> exists w1 w2, w = w1 ++ w2 /\ viable [e] w1 /\ viable K w2.
Proof. apply (viable_split [e]). Qed.
Lemma viable_tk l K t w : In t l -> viable K w -> viable (Tk l :: K) (t :: w).
Proof.
  intros Hin H. apply (viable_cons (Tk l) K [t] w); [|exact H]. apply viable_one. exists [Leaf (mkTok t [] 0 0 0 0)]. split; [constructor; exact Hin|reflexivity].
Qed.
Lemma viable_tk_inv l K w : viable (Tk l :: K) w -> exists t w', w = t :: w' /\ In t l /\ viable K w'.
Proof.
  intros H. destruct w as [|t w].
  - destruct H as (fs & Hd & Hl). inversion Hd as [|? ? x y Hx Hy]; subst. inversion Hx; subst. discriminate.
  - apply viable_step_tk in H. eauto.
Qed.

(** ** Selections exist *)
Lemma selects_exists e K ts : stack_ok (e :: K) = true -> viable (e :: K) (types ts) ->
  exists x r, selects e K ts x r /\ viable K (types r).
Proof.
  intros Hok Hv. destruct (parse_e_selects (Z.to_nat (need (e :: K) (length ts))) e K ts Hok ltac:(lia) Hv) as (x & r & _ & H). eauto.
Qed.
Lemma selects_viable e K ts x r : selects e K ts x r -> viable K (types r) -> viable (e :: K) (types ts).
Proof.
  intros H Hv. destruct (selects_derives _ _ _ _ _ H) as [Hd ->]. rewrite map_app. apply viable_app; assumption.
Qed.

(** ** Subtrees of the selected tree are selected *)
Inductive subtree (t : ptree) : ptree -> Prop :=
| sbt_here : subtree t t
| sbt_child r ch c : In c ch -> subtree t c -> subtree t (Node r ch).
Lemma subtree_trans a b c : subtree a b -> subtree b c -> subtree a c.
Proof. intros H. induction 1; [exact H|]. econstructor; eauto. Qed.

Lemma selects_inner e K ts x r : selects e K ts x r -> viable K (types r) -> stack_ok (e :: K) = true ->
  forall rl ch u, In u x -> subtree (Node rl ch) u ->
  exists K' pre ts' rest, ts = pre ++ ts' /\ selects (NT rl) K' ts' [Node rl ch] rest /\ viable K' (types rest) /\ stack_ok K' = true.
Proof.
  induction 1 as [l K t ts Hin|r K ts ch rest Hs IH|a b K ts x r1 y r2 Hs1 IH1 Hs2 IH2
    |a b K ts x r Hv Hs IH|a b K ts x r Hv Hs IH|e K ts x r Hv Hs IH|e K ts Hv
    |e K ts x r Hs IH|e K ts x r Hv Hs IH|e K ts Hv]; intros HK Hok rl chl v Hin' Hsub; try contradiction.
  - destruct Hin' as [<-|[]]. inversion Hsub.
  - destruct Hin' as [<-|[]]. cbn in Hok. inversion Hsub as [|r' ch' c Hc Hsub']; subst.
    + exists K, [], ts, rest. split; [reflexivity|]. split; [constructor; exact Hs|]. auto.
    + eapply IH; eauto. cbn. rewrite body_loops. exact Hok.
  - cbn in Hok. apply andb_true_iff in Hok. destruct Hok as [Hab HK']. apply andb_true_iff in Hab. destruct Hab as [Ha Hb].
    apply in_app_or in Hin'. destruct Hin' as [Hin'|Hin'].
    + eapply IH1; eauto; [|cbn; rewrite Ha, Hb; exact HK']. eapply selects_viable; eassumption.
    + destruct (IH2 HK ltac:(cbn; rewrite Hb; exact HK') _ _ _ Hin' Hsub) as (K' & pre & ts' & rest & -> & H).
      destruct (selects_derives _ _ _ _ _ Hs1) as [_ ->]. exists K', (flat_map leaves x ++ pre), ts', rest. split; [apply app_assoc|exact H].
  - cbn in Hok. apply andb_true_iff in Hok. destruct Hok as [Hab HK']. apply andb_true_iff in Hab. destruct Hab as [Ha Hb].
    eapply IH; eauto. cbn. rewrite Ha. exact HK'.
  - cbn in Hok. apply andb_true_iff in Hok. destruct Hok as [Hab HK']. apply andb_true_iff in Hab. destruct Hab as [Ha Hb].
    eapply IH; eauto. cbn. rewrite Hb. exact HK'.
  - cbn in Hok. eapply IH; eauto.
  - eapply IH; eauto. cbn [stack_ok forallb loops_ok] in *. apply andb_true_iff in Hok. destruct Hok as [Ha HK']. rewrite Ha, HK'.
    apply andb_true_iff in Ha. rewrite (proj1 Ha). reflexivity.
  - eapply IH; eauto. cbn [stack_ok forallb loops_ok] in *. apply andb_true_iff in Hok. destruct Hok as [Ha HK']. rewrite Ha, HK'.
    apply andb_true_iff in Ha. rewrite (proj1 Ha). reflexivity.
Qed.

(** ** Inside one bracket level *)
Definition flats (Ks : list ebnf) : Prop := Forall flat Ks.
Lemma derives_all_balanced Ks fs : derives_all Ks fs -> flats Ks -> balanced (ttypes fs).
Proof.
  induction 1 as [|e K x y Hx _ IH]; intros Hf; [reflexivity|]. inversion Hf; subst. rewrite ttypes_app.
  apply balanced_app; [eapply derives_balanced; eassumption|auto].
Qed.
Lemma viable_balanced Ks w : viable Ks w -> flats Ks -> balanced w.
Proof. intros (fs & Hd & <-) Hf. exact (derives_all_balanced _ _ Hd Hf). Qed.
Lemma level_viable Ks c K w R : flats Ks -> balanced w -> closes c = true ->
  viable (Ks ++ Tk [c] :: K) (w ++ c :: R) <-> viable Ks w /\ viable K R.
Proof.
  intros Hf Hw Hc. split.
  - intros H. apply viable_split in H. destruct H as (w1 & w2 & Heq & H1 & H2). apply viable_tk_inv in H2. destruct H2 as (t & w' & -> & [<-|[]] & H2).
    destruct (balanced_unique _ _ _ _ _ _ Hw (viable_balanced _ _ H1 Hf) Hc Hc Heq) as (-> & _ & ->). auto.
  - intros [H1 H2]. apply viable_app2; [exact H1|]. apply viable_tk; [left; reflexivity|exact H2].
Qed.

(** The operators of a level. *)
Definition is_op (t : ttype) : bool := match t with AND | OR => true | _ => false end.
Definition ops (w : list ttype) : list ttype := filter is_op (tops 0 w).
Lemma ops_app a b : balanced a -> ops (a ++ b) = ops a ++ ops b.
Proof. intros H. unfold ops. rewrite tops_bal_app by exact H. apply filter_app. Qed.
Lemma ops_op t w : is_op t = true -> ops (t :: w) = t :: ops w.
Proof. intros H. unfold ops. destruct t; try discriminate H; reflexivity. Qed.
Lemma ops_not w : ops (NOT :: w) = ops w.
Proof. reflexivity. Qed.
Lemma ops_in ty w : is_op ty = true -> In ty (ops w) <-> (1 <= cnt ty (tops 0 w))%nat.
Proof. intros H. unfold ops. rewrite filter_In, cnt_in. tauto. Qed.
Lemma cnt_ops ty w : is_op ty = true -> cnt ty (ops w) = cnt ty (tops 0 w).
Proof.
  intros H. unfold ops, cnt. induction (tops 0 w) as [|t l IH]; [reflexivity|]. cbn [filter]. destruct (is_op t) eqn:Ht; cbn [filter].
  - destruct (ttype_eqb ty t); cbn [List.length]; congruence.
  - assert (ttype_eqb ty t = false) as ->; [|exact IH]. unfold ttype_eqb. destruct (ttype_eq_dec ty t); [congruence|reflexivity].
Qed.
Lemma viable_lob ty e w : is_op ty = true -> viable [e] w -> flat e -> (lob ty 0 e <= cnt ty (ops w))%nat.
Proof.
  intros Hty Hv Hf. apply viable_one in Hv. destruct Hv as (x & Hx & <-). rewrite cnt_ops by exact Hty.
  eapply derives_lob; [destruct ty; try discriminate Hty; cbn; tauto|exact Hx|exact Hf|lia|lia].
Qed.
Definition lobs (ty : ttype) (Ks : list ebnf) : nat := fold_right (fun e a => lob ty 0 e + a)%nat 0%nat Ks.
Lemma viable_lobs ty Ks : is_op ty = true -> flats Ks -> forall w, viable Ks w -> (lobs ty Ks <= cnt ty (ops w))%nat.
Proof.
  intros Hty. induction 1 as [|e Ks He Hf IH]; intros w Hv; cbn [lobs fold_right]; [lia|].
  apply viable_cons_inv in Hv. destruct Hv as (w1 & w2 & -> & H1 & H2). rewrite ops_app by (eapply viable_balanced; [exact H1|repeat constructor; exact He]).
  rewrite cnt_app. pose proof (viable_lob ty e w1 Hty H1 He). specialize (IH _ H2). fold (lobs ty Ks). lia.
Qed.
Lemma viable_nob e w : viable [e] w -> flat e -> nob AND 0 e = true -> nob OR 0 e = true -> ops w = [].
Proof.
  intros Hv Hf Ha Ho. apply viable_one in Hv. destruct Hv as (x & Hx & <-). unfold ops.
  assert (H1 : ~ In AND (tops 0 (ttypes x))) by (eapply derives_nob; [cbn; tauto|exact Hx|exact Hf|lia|lia|exact Ha]).
  assert (H2 : ~ In OR (tops 0 (ttypes x))) by (eapply derives_nob; [cbn; tauto|exact Hx|exact Hf|lia|lia|exact Ho]).
  induction (tops 0 (ttypes x)) as [|t l IH]; [reflexivity|]. cbn in *. destruct t; cbn; try (exfalso; tauto); apply IH; tauto.
Qed.
