(** ANTLR's parser selects a derivation; fuel is sufficient. *)
From Verif Require Import Base LexRules Lexer Grammar Antlr GramSpec.

Lemma tt_in_spec t l : tt_in t l = true <-> In t l.
Proof.
  unfold tt_in. rewrite existsb_exists. unfold ttype_eqb. split.
  - intros (x & Hx & H). destruct (ttype_eq_dec t x); [subst; exact Hx|discriminate].
  - intros H. exists t. split; [exact H|]. destruct (ttype_eq_dec t t); congruence.
Qed.

Lemma if_orb (a b : bool) : (if a then true else b) = (a || b)%bool.
Proof. destruct a; reflexivity. Qed.

(** ** viableb *)
Lemma viableb_S f : forall K ts, viableb f K ts = true -> viableb (S f) K ts = true.
Proof.
  induction f as [|f IH]; intros K ts H; [discriminate|].
  cbn [viableb] in H. change (viableb (S (S f)) K ts) with
    (match K with
      | [] => match ts with [] => true | _ :: _ => false end
      | Tk l :: K' => match ts with t :: ts' => if tt_in t l then viableb (S f) K' ts' else false | [] => false end
      | NT r :: K' => viableb (S f) (body r :: K') ts
      | Sq a b :: K' => viableb (S f) (a :: b :: K') ts
      | Al a b :: K' => if viableb (S f) (a :: K') ts then true else viableb (S f) (b :: K') ts
      | Op e :: K' => if viableb (S f) (e :: K') ts then true else viableb (S f) K' ts
      | Pl e :: K' => viableb (S f) (e :: St e :: K') ts
      | St e :: K' => if viableb (S f) (e :: St e :: K') ts then true else viableb (S f) K' ts
      end).
  destruct K as [|[l|r|a b|a b|e|e|e] K]; auto.
  - destruct ts as [|t ts]; [discriminate|]. destruct (tt_in t l); [auto|discriminate].
  - rewrite if_orb in *. apply orb_true_iff in H. apply orb_true_iff. destruct H; auto.
  - rewrite if_orb in *. apply orb_true_iff in H. apply orb_true_iff. destruct H; auto.
  - rewrite if_orb in *. apply orb_true_iff in H. apply orb_true_iff. destruct H; auto.
Qed.

Lemma viableb_le f f' K ts : f <= f' -> viableb f K ts = true -> viableb f' K ts = true.
Proof. induction 1; auto using viableb_S. Qed.

Lemma viableb_sound f : forall K ts, viableb f K ts = true ->
  forall toks, map t_type toks = ts -> exists fs, derives_all K fs /\ flat_map leaves fs = toks.
Proof.
  induction f as [|f IH]; intros K ts H toks Ht; [discriminate|]. cbn [viableb] in H.
  destruct K as [|[l|r|a b|a b|e|e|e] K].
  - destruct ts as [|t ts]; [|discriminate]. destruct toks; [|discriminate]. exists []. split; constructor.
  - destruct ts as [|t ts]; [discriminate|]. destruct (tt_in t l) eqn:E; [|discriminate].
    destruct toks as [|k toks]; [discriminate|]. cbn in Ht. injection Ht as Hk Ht.
    destruct (IH _ _ H toks Ht) as (fs & Hd & Hl). exists ([Leaf k] ++ fs). split.
    + constructor; [constructor; rewrite Hk; apply tt_in_spec; exact E|exact Hd].
    + cbn. rewrite Hl. reflexivity.
  - destruct (IH _ _ H toks Ht) as (fs & Hd & Hl). inversion Hd as [|? ? x y Hx Hy]; subst.
    exists ([Node r x] ++ y). split; [constructor; [constructor; exact Hx|exact Hy]|].
    rewrite !flat_map_app. cbn. rewrite app_nil_r. reflexivity.
  - destruct (IH _ _ H toks Ht) as (fs & Hd & Hl). inversion Hd as [|? ? x y Hx Hy]; subst.
    inversion Hy as [|? ? x' y' Hx' Hy']; subst. exists ((x ++ x') ++ y'). split.
    + constructor; [constructor; assumption|assumption].
    + rewrite <- app_assoc. reflexivity.
  - rewrite if_orb in H. apply orb_true_iff in H. destruct H as [H|H];
      destruct (IH _ _ H toks Ht) as (fs & Hd & Hl); inversion Hd as [|? ? x y Hx Hy]; subst;
      (exists (x ++ y); split; [constructor; [|exact Hy]|reflexivity]).
    + apply d_al1. exact Hx.
    + apply d_al2. exact Hx.
  - rewrite if_orb in H. apply orb_true_iff in H. destruct H as [H|H];
      destruct (IH _ _ H toks Ht) as (fs & Hd & Hl).
    + inversion Hd as [|? ? x y Hx Hy]; subst. exists (x ++ y). split; [constructor; [|exact Hy]|reflexivity].
      apply d_op1. exact Hx.
    + exists ([] ++ fs). split; [constructor; [constructor|exact Hd]|exact Hl].
  - destruct (IH _ _ H toks Ht) as (fs & Hd & Hl). inversion Hd as [|? ? x y Hx Hy]; subst.
    inversion Hy as [|? ? x' y' Hx' Hy']; subst. exists ((x ++ x') ++ y'). split.
    + constructor; [constructor; assumption|assumption].
    + rewrite <- app_assoc. reflexivity.
  - rewrite if_orb in H. apply orb_true_iff in H. destruct H as [H|H];
      destruct (IH _ _ H toks Ht) as (fs & Hd & Hl).
    + inversion Hd as [|? ? x y Hx Hy]; subst. inversion Hy as [|? ? x' y' Hx' Hy']; subst.
      exists ((x ++ x') ++ y'). split; [constructor; [apply d_st1; assumption|exact Hy']|].
      rewrite <- app_assoc. reflexivity.
    + exists ([] ++ fs). split; [constructor; [constructor|exact Hd]|exact Hl].
Qed.

(** ** Potential: derivation steps are bounded by 64 per token minus a spare. *)
Local Open Scope Z_scope.
Definition spare (r : rule) : Z :=
  match r with
  | qualifier | identifier | regexp_pattern | regexp_flag | within_part_simple => 62
  | within_part => 61
  | attribute => 50
  | regexp => 50
  | expression_basic => 48
  | expression_group => 40
  | expression_not => 40
  | expression_and => 30
  | expression_or => 20
  | expression => 10
  | query_segment => 40
  | query_implicit => 48
  | quantifier => 50
  | query_simple => 30
  | query_group => 20
  | query_sequence => 12
  | query_disjunction => 5
  | main_query => 0
  | query => 0
  end.
Fixpoint esp (e : ebnf) : Z :=
  match e with
  | Tk _ => 63
  | NT r => spare r
  | Sq a b => esp a + esp b - 1
  | Al a b => Z.min (esp a) (esp b) - 1
  | Op e => Z.min (esp e) 0 - 1
  | Pl e => esp e - 3
  | St e => -1
  end.
(** Loop bodies must leave enough spare. *)
Fixpoint loops_ok (e : ebnf) : bool :=
  match e with
  | Tk _ | NT _ => true
  | Sq a b | Al a b => loops_ok a && loops_ok b
  | Op e => loops_ok e
  | Pl e | St e => loops_ok e && (2 <=? esp e)
  end.
Definition all_rules : list rule :=
  [query; main_query; query_disjunction; query_sequence; query_group; query_simple; quantifier;
   query_implicit; query_segment; within_part; within_part_simple; expression; expression_or;
   expression_and; expression_group; expression_not; expression_basic; attribute; qualifier;
   identifier; regexp; regexp_pattern; regexp_flag].
Lemma all_rules_all r : In r all_rules.
Proof. destruct r; cbn; tauto. Qed.
Lemma spare_ok r : spare r <= esp (body r) - 1.
Proof.
  assert (H : forallb (fun r => spare r <=? esp (body r) - 1) all_rules = true) by (vm_compute; reflexivity).
  rewrite forallb_forall in H. apply Z.leb_le. apply H. apply all_rules_all.
Qed.
Lemma body_loops r : loops_ok (body r) = true.
Proof.
  assert (H : forallb (fun r => loops_ok (body r)) all_rules = true) by (vm_compute; reflexivity).
  rewrite forallb_forall in H. apply H. apply all_rules_all.
Qed.

Definition ntok (fs : list ptree) : Z := Z.of_nat (length (flat_map leaves fs)).
Lemma ntok_app x y : ntok (x ++ y) = ntok x + ntok y.
Proof. unfold ntok. rewrite flat_map_app, app_length. lia. Qed.

Definition ttypes (fs : list ptree) : list ttype := map t_type (flat_map leaves fs).
Lemma ttypes_app x y : ttypes (x ++ y) = ttypes x ++ ttypes y.
Proof. unfold ttypes. rewrite flat_map_app, map_app. reflexivity. Qed.

(** Every derivation is found by [viableb] within its potential. *)
Lemma derives_viableb e x : derives e x -> loops_ok e = true ->
  exists c, Z.of_nat c <= 64 * ntok x - esp e /\
    forall f K ts, viableb f K ts = true -> viableb (c + f) (e :: K) (ttypes x ++ ts) = true.
Proof.
  induction 1 as [l t Hin|r ch _ IH|a b x y _ IHx _ IHy|a b x _ IH|a b x _ IH|e|e x _ IH
                 |e x y _ IHx _ IHy|e|e x y _ IHx _ IHy]; intros Hok; cbn [loops_ok] in Hok; cbn [esp].
  - exists 1%nat. split; [cbn; lia|]. intros f K ts H. cbn. rewrite (proj2 (tt_in_spec _ _) Hin). exact H.
  - destruct (IH (body_loops r)) as (c & Hc & Hv). exists (S c). split.
    + pose proof (spare_ok r). replace (ntok [Node r ch]) with (ntok ch)
        by (unfold ntok; cbn; rewrite app_nil_r; reflexivity). lia.
    + intros f K ts H. cbn [Nat.add viableb].
      replace (ttypes [Node r ch]) with (ttypes ch) by (unfold ttypes; cbn; rewrite app_nil_r; reflexivity).
      apply Hv. exact H.
  - apply andb_true_iff in Hok. destruct Hok as [Ha Hb].
    destruct (IHx Ha) as (c1 & Hc1 & Hv1). destruct (IHy Hb) as (c2 & Hc2 & Hv2).
    exists (S (c1 + c2)). split; [rewrite ntok_app; lia|]. intros f K ts H. cbn [Nat.add viableb].
    rewrite ttypes_app, <- app_assoc, <- Nat.add_assoc. apply Hv1. apply Hv2. exact H.
  - apply andb_true_iff in Hok. destruct Hok as [Ha Hb]. destruct (IH Ha) as (c & Hc & Hv).
    exists (S c). split; [lia|]. intros f K ts H. cbn [Nat.add viableb]. rewrite (Hv f K ts H). reflexivity.
  - apply andb_true_iff in Hok. destruct Hok as [Ha Hb]. destruct (IH Hb) as (c & Hc & Hv).
    exists (S c). split; [lia|]. intros f K ts H. cbn [Nat.add viableb]. rewrite if_orb. apply orb_true_iff.
    right. apply Hv. exact H.
  - exists 1%nat. split; [cbn; lia|]. intros f K ts H. cbn [Nat.add viableb]. rewrite if_orb. apply orb_true_iff.
    right. exact H.
  - destruct (IH Hok) as (c & Hc & Hv). exists (S c). split; [lia|]. intros f K ts H.
    cbn [Nat.add viableb]. rewrite (Hv f K ts H). reflexivity.
  - assert (Hok' := Hok). apply andb_true_iff in Hok. destruct Hok as [Ha Hb].
    destruct (IHx Ha) as (c1 & Hc1 & Hv1). destruct (IHy Hok') as (c2 & Hc2 & Hv2).
    exists (S (c1 + c2)). cbn [esp] in Hc2. split; [rewrite ntok_app; lia|]. intros f K ts H. cbn [Nat.add viableb].
    rewrite ttypes_app, <- app_assoc, <- Nat.add_assoc. apply Hv1. apply Hv2. exact H.
  - exists 1%nat. split; [cbn; lia|]. intros f K ts H. cbn [Nat.add viableb]. rewrite if_orb. apply orb_true_iff.
    right. exact H.
  - assert (Hok' := Hok). apply andb_true_iff in Hok. destruct Hok as [Ha Hb]. apply Z.leb_le in Hb.
    destruct (IHx Ha) as (c1 & Hc1 & Hv1). destruct (IHy Hok') as (c2 & Hc2 & Hv2).
    exists (S (c1 + c2)). cbn [esp] in Hc2. split; [rewrite ntok_app; lia|]. intros f K ts H. cbn [Nat.add viableb].
    rewrite ttypes_app, <- app_assoc, <- Nat.add_assoc. rewrite (Hv1 (c2 + f)%nat (St e :: K)); [reflexivity|].
    apply Hv2. exact H.
Qed.

Definition sum_esp (K : list ebnf) : Z := fold_right (fun e a => esp e + a) 0 K.
Definition stack_ok (K : list ebnf) : bool := forallb loops_ok K.

Lemma derives_all_viableb K fs : derives_all K fs -> stack_ok K = true ->
  exists c, Z.of_nat c <= 64 * ntok fs - sum_esp K + 1 /\ viableb c K (ttypes fs) = true.
Proof.
  induction 1 as [|e K x y Hx _ IH]; intros Hok.
  - exists 1%nat. split; [cbn; lia|reflexivity].
  - cbn [stack_ok forallb] in Hok. apply andb_true_iff in Hok. destruct Hok as [He HK].
    destruct (IH HK) as (c & Hc & Hv). destruct (derives_viableb _ _ Hx He) as (c1 & Hc1 & Hv1).
    exists (c1 + c)%nat. split; [cbn [sum_esp fold_right]; fold (sum_esp K); rewrite ntok_app; lia|].
    rewrite ttypes_app. apply Hv1. exact Hv.
Qed.

Definition need (K : list ebnf) (n : nat) : Z := 64 * Z.of_nat n - sum_esp K + 1.

(** [viableb] decides [viable] when it has enough fuel. *)
Lemma viableb_spec f K ts : stack_ok K = true -> need K (length ts) <= Z.of_nat f ->
  viableb f K ts = true <-> viable K ts.
Proof.
  intros Hok Hf. split.
  - intros H. 
    destruct (viableb_sound f K ts H (map (fun ty => mkTok ty [] 0 0 0 0) ts)) as (fs & Hd & Hl).
    { rewrite map_map. cbn. apply map_id. }
    exists fs. split; [exact Hd|]. rewrite Hl, map_map. cbn. apply map_id.
  - intros (fs & Hd & Hl). destruct (derives_all_viableb K fs Hd Hok) as (c & Hc & Hv).
    unfold ttypes in Hv. rewrite Hl in Hv. eapply viableb_le; [|exact Hv].
    unfold need in Hf. unfold ntok in Hc. rewrite <- Hl, map_length in Hf. lia.
Qed.

(** ** parse_e *)
Lemma derives_tokens e x : derives e x -> loops_ok e = true -> esp e <= 64 * ntok x.
Proof. intros H Hok. destruct (derives_viableb _ _ H Hok) as (c & Hc & _). lia. Qed.

Lemma viable_step_tk l K t ts : viable (Tk l :: K) (t :: ts) -> In t l /\ viable K ts.
Proof.
  intros (fs & Hd & Hl). inversion Hd as [|? ? x y Hx Hy]; subst. inversion Hx as [l' k Hk| | | | | | | | |]; subst.
  cbn in Hl. injection Hl as <- Hl. split; [exact Hk|]. exists y. auto.
Qed.
Lemma viable_nt r K ts : viable (NT r :: K) ts <-> viable (body r :: K) ts.
Proof.
  split; intros (fs & Hd & Hl); inversion Hd as [|? ? x y Hx Hy]; subst.
  - inversion Hx; subst. exists (ch ++ y). split; [constructor; assumption|].
    rewrite !flat_map_app. cbn. rewrite app_nil_r. reflexivity.
  - exists ([Node r x] ++ y). split; [constructor; [constructor; assumption|assumption]|].
    rewrite !flat_map_app. cbn. rewrite app_nil_r. reflexivity.
Qed.
Lemma viable_sq a b K ts : viable (Sq a b :: K) ts <-> viable (a :: b :: K) ts.
Proof.
  split; intros (fs & Hd & Hl); inversion Hd as [|? ? x y Hx Hy]; subst.
  - inversion Hx as [| |? ? x1 x2 H1 H2| | | | | | |]; subst. exists (x1 ++ x2 ++ y). split.
    + constructor; [assumption|]. constructor; assumption.
    + rewrite <- app_assoc. reflexivity.
  - inversion Hy as [|? ? x' y' Hx' Hy']; subst. exists ((x ++ x') ++ y'). split.
    + constructor; [constructor|]; assumption.
    + rewrite <- app_assoc. reflexivity.
Qed.
Lemma viable_al a b K ts : viable (Al a b :: K) ts <-> viable (a :: K) ts \/ viable (b :: K) ts.
Proof.
  split.
  - intros (fs & Hd & Hl); inversion Hd as [|? ? x y Hx Hy]; subst. inversion Hx; subst.
    + left. exists (x ++ y). split; [constructor; assumption|reflexivity].
    + right. exists (x ++ y). split; [constructor; assumption|reflexivity].
  - intros [(fs & Hd & Hl)|(fs & Hd & Hl)]; inversion Hd as [|? ? x y Hx Hy]; subst;
      exists (x ++ y); (split; [constructor; [|assumption]|reflexivity]).
    + apply d_al1. assumption.
    + apply d_al2. assumption.
Qed.
Lemma viable_op e K ts : viable (Op e :: K) ts <-> viable (e :: K) ts \/ viable K ts.
Proof.
  split.
  - intros (fs & Hd & Hl); inversion Hd as [|? ? x y Hx Hy]; subst. inversion Hx; subst.
    + right. exists y. auto.
    + left. exists (x ++ y). split; [constructor; assumption|reflexivity].
  - intros [(fs & Hd & Hl)|(fs & Hd & Hl)].
    + inversion Hd as [|? ? x y Hx Hy]; subst. exists (x ++ y). split; [constructor; [constructor|]; assumption|reflexivity].
    + exists ([] ++ fs). split; [constructor; [constructor|assumption]|exact Hl].
Qed.
Lemma viable_st e K ts : viable (St e :: K) ts <-> viable (e :: St e :: K) ts \/ viable K ts.
Proof.
  split.
  - intros (fs & Hd & Hl); inversion Hd as [|? ? x y Hx Hy]; subst. inversion Hx; subst.
    + right. exists y. auto.
    + left. exists (x0 ++ y0 ++ y). split; [constructor; [assumption|constructor; assumption]|].
      rewrite <- app_assoc. reflexivity.
  - intros [(fs & Hd & Hl)|(fs & Hd & Hl)].
    + inversion Hd as [|? ? x y Hx Hy]; subst. inversion Hy as [|? ? x' y' Hx' Hy']; subst.
      exists ((x ++ x') ++ y'). split; [constructor; [apply d_st1|]; assumption|]. rewrite <- app_assoc. reflexivity.
    + exists ([] ++ fs). split; [constructor; [constructor|assumption]|exact Hl].
Qed.
Lemma viable_pl e K ts : viable (Pl e :: K) ts <-> viable (e :: St e :: K) ts.
Proof.
  split; intros (fs & Hd & Hl); inversion Hd as [|? ? x y Hx Hy]; subst.
  - inversion Hx; subst. exists (x0 ++ y0 ++ y). split; [constructor; [assumption|constructor; assumption]|].
    rewrite <- app_assoc. reflexivity.
  - inversion Hy as [|? ? x' y' Hx' Hy']; subst. exists ((x ++ x') ++ y'). split.
    + constructor; [apply d_pl|]; assumption.
    + rewrite <- app_assoc. reflexivity.
Qed.
Lemma viable_app e K x ts : derives e x -> viable K ts -> viable (e :: K) (ttypes x ++ ts).
Proof.
  intros Hx (fs & Hd & Hl). exists (x ++ fs). split; [constructor; assumption|].
  rewrite flat_map_app, map_app, Hl. reflexivity.
Qed.

(** What the selected derivation looks like. *)
Lemma selects_derives e K ts x r : selects e K ts x r -> derives e x /\ ts = flat_map leaves x ++ r.
Proof.
  induction 1 as [l K t ts Hin|rl K ts ch rest _ [IH1 IH2]|a b K ts x r1 y r2 _ [IH1 IH2] _ [IH3 IH4]
    |a b K ts x r _ _ [IH1 IH2]|a b K ts x r _ _ [IH1 IH2]|e K ts x r _ _ [IH1 IH2]|e K ts _
    |e K ts x r _ [IH1 IH2]|e K ts x r _ _ [IH1 IH2]|e K ts _].
  - split; [constructor; exact Hin|reflexivity].
  - split; [constructor; exact IH1|]. cbn. rewrite app_nil_r. exact IH2.
  - split; [constructor; assumption|]. rewrite flat_map_app, <- app_assoc, <- IH4. exact IH2.
  - split; [apply d_al1|]; assumption.
  - split; [apply d_al2|]; assumption.
  - split; [apply d_op1|]; assumption.
  - split; [constructor|reflexivity].
  - inversion IH1; subst. split; [constructor; assumption|reflexivity].
  - inversion IH1; subst. split; [apply d_st1; assumption|reflexivity].
  - split; [constructor|reflexivity].
Qed.

Lemma selects_det e K ts x r : selects e K ts x r -> forall x' r', selects e K ts x' r' -> x = x' /\ r = r'.
Proof.
  induction 1 as [l K t ts Hin|rl K ts ch rest _ IH|a b K ts x r1 y r2 _ IH1 _ IH2
    |a b K ts x r Hv _ IH|a b K ts x r Hv _ IH|e K ts x r Hv _ IH|e K ts Hv
    |e K ts x r _ IH|e K ts x r Hv _ IH|e K ts Hv]; intros x' r' H';
  inversion H'; subst; try contradiction; auto.
  - match goal with H : selects (body _) _ _ _ _ |- _ => destruct (IH _ _ H) end. subst. auto.
  - match goal with H : selects a _ _ _ _ |- _ => destruct (IH1 _ _ H) end. subst.
    match goal with H : selects b _ _ _ _ |- _ => destruct (IH2 _ _ H) end. subst. auto.
Qed.

Lemma parse_e_selects f : forall e K ts, stack_ok (e :: K) = true ->
  need (e :: K) (length ts) <= Z.of_nat f -> viable (e :: K) (map t_type ts) ->
  exists x r, parse_e f e K ts = Some (x, r) /\ selects e K ts x r /\ viable K (map t_type r).
Proof.
  induction f as [|f IH]; intros e K ts Hok Hf Hv.
  { exfalso. destruct Hv as (fs & Hd & Hl). destruct (derives_all_viableb _ _ Hd Hok) as (c & Hc & Hv).
    unfold need in Hf. unfold ntok in Hc. rewrite <- (map_length t_type), <- Hl, map_length in Hf.
    destruct c; [discriminate|]. lia. }
  assert (Hdec : forall K', stack_ok K' = true -> need K' (length ts) <= Z.of_nat (S f) ->
             viableb (S f) K' (map t_type ts) = true <-> viable K' (map t_type ts)).
  { intros K' Hok' Hf'. apply viableb_spec; [exact Hok'|]. rewrite map_length. exact Hf'. }
  cbn [parse_e]. cbv zeta. unfold need in *. cbn [stack_ok forallb] in Hok. apply andb_true_iff in Hok. destruct Hok as [He HK].
  cbn [sum_esp fold_right] in Hf. fold (sum_esp K) in Hf.
  assert (Hseq : forall a b, loops_ok a = true -> loops_ok b = true ->
     64 * Z.of_nat (length ts) - (esp a + (esp b + sum_esp K)) + 1 + 1 <= Z.of_nat (S f) ->
     viable (a :: b :: K) (map t_type ts) ->
     exists x r, match parse_e f a (b :: K) ts with
                 | Some (ch1, rest1) => match parse_e f b K rest1 with
                                        | Some (ch2, rest2) => Some (ch1 ++ ch2, rest2) | None => None end
                 | None => None end = Some (x, r) /\ selects (Sq a b) K ts x r /\ viable K (map t_type r)).
  { intros a b Ha Hb Hn Hvab.
    destruct (IH a (b :: K) ts) as (x & r & -> & Hs & Hv1); [cbn; rewrite Ha, Hb; exact HK|cbn [sum_esp fold_right]; fold (sum_esp K); lia|exact Hvab|].
    destruct (selects_derives _ _ _ _ _ Hs) as [Hda Hts].
    destruct (IH b K r) as (y & r' & -> & Hs' & Hv2); [cbn; rewrite Hb; exact HK| |exact Hv1|].
    { pose proof (derives_tokens _ _ Hda Ha). unfold ntok in *. rewrite Hts, app_length in Hn.
      cbn [sum_esp fold_right]. fold (sum_esp K). lia. }
    exists (x ++ y), r'. split; [reflexivity|]. split; [econstructor; eassumption|exact Hv2]. }
  destruct e as [l|r|a b|a b|e|e|e]; cbn [loops_ok] in He; cbn [esp] in Hf.
  - destruct ts as [|t ts].
    + exfalso. destruct Hv as (fs & Hd & Hl). inversion Hd as [|? ? x y Hx Hy]; subst. inversion Hx; subst. discriminate.
    + destruct (viable_step_tk _ _ _ _ Hv) as [Hin Hv']. rewrite (proj2 (tt_in_spec _ _) Hin).
      exists [Leaf t], ts. split; [reflexivity|]. split; [constructor; exact Hin|exact Hv'].
  - destruct (IH (body r) K ts) as (x & rest & -> & Hs & Hv').
    + cbn. rewrite body_loops. exact HK.
    + cbn [sum_esp fold_right]. fold (sum_esp K). pose proof (spare_ok r). lia.
    + apply viable_nt. exact Hv.
    + exists [Node r x], rest. split; [reflexivity|]. split; [constructor; exact Hs|exact Hv'].
  - apply andb_true_iff in He. destruct He as [Ha Hb]. apply Hseq; auto; [lia|]. apply viable_sq. exact Hv.
  - apply andb_true_iff in He. destruct He as [Ha Hb].
    assert (Hd := Hdec (a :: K)). cbn [stack_ok forallb sum_esp fold_right] in Hd. fold (stack_ok K) in Hd. fold (sum_esp K) in Hd.
    rewrite Ha in Hd. specialize (Hd HK ltac:(lia)).
    destruct (viableb (S f) (a :: K) (map t_type ts)) eqn:E.
    + destruct (IH a K ts) as (x & rest & -> & Hs & Hv').
      * cbn. rewrite Ha. exact HK.
      * cbn [sum_esp fold_right]. fold (sum_esp K). lia.
      * apply Hd. reflexivity.
      * exists x, rest. split; [reflexivity|]. split; [|exact Hv']. apply s_al1; [apply Hd; reflexivity|exact Hs].
    + assert (Hna : ~ viable (a :: K) (map t_type ts)) by (intros H; apply Hd in H; discriminate).
      destruct (IH b K ts) as (x & rest & -> & Hs & Hv').
      * cbn. rewrite Hb. exact HK.
      * cbn [sum_esp fold_right]. fold (sum_esp K). lia.
      * apply viable_al in Hv. tauto.
      * exists x, rest. split; [reflexivity|]. split; [|exact Hv']. apply s_al2; [exact Hna|exact Hs].
  - assert (Hd := Hdec (e :: K)). cbn [stack_ok forallb sum_esp fold_right] in Hd. fold (stack_ok K) in Hd. fold (sum_esp K) in Hd.
    rewrite He in Hd. specialize (Hd HK ltac:(lia)).
    destruct (viableb (S f) (e :: K) (map t_type ts)) eqn:E.
    + destruct (IH e K ts) as (x & rest & -> & Hs & Hv').
      * cbn. rewrite He. exact HK.
      * cbn [sum_esp fold_right]. fold (sum_esp K). lia.
      * apply Hd. reflexivity.
      * exists x, rest. split; [reflexivity|]. split; [|exact Hv']. apply s_op1; [apply Hd; reflexivity|exact Hs].
    + assert (Hna : ~ viable (e :: K) (map t_type ts)) by (intros H; apply Hd in H; discriminate).
      exists [], ts. split; [reflexivity|]. split; [apply s_op0; exact Hna|]. apply viable_op in Hv. tauto.
  - apply andb_true_iff in He. destruct He as [He He2].
    assert (Hst : loops_ok (St e) = true) by (cbn; rewrite He, He2; reflexivity).
    destruct f as [|f].
    { exfalso. apply viable_pl in Hv. destruct Hv as (fs & Hd & Hl).
      destruct (derives_all_viableb _ _ Hd) as (c & Hc & Hv); [cbn [stack_ok forallb]; rewrite He, Hst; exact HK|].
      cbn [sum_esp fold_right esp] in Hc. fold (sum_esp K) in Hc.
      unfold ntok in Hc. rewrite <- (map_length t_type ts), <- Hl, map_length in Hf.
      destruct c; [discriminate|]. lia. }
    destruct (IH (Sq e (St e)) K ts) as (x & r & Hp & Hs & Hv').
    + cbn [stack_ok forallb loops_ok]. rewrite He, He2. cbn. exact HK.
    + cbn [sum_esp fold_right esp]. fold (sum_esp K). lia.
    + apply viable_sq. apply viable_pl. exact Hv.
    + rewrite Hp. exists x, r. split; [reflexivity|]. split; [constructor; exact Hs|exact Hv'].
  - assert (He' := He). apply andb_true_iff in He. destruct He as [He He2].
    assert (Hst : loops_ok (St e) = true) by exact He'. apply Z.leb_le in He2.
    assert (Hd := Hdec (e :: St e :: K)). cbn [stack_ok forallb sum_esp fold_right] in Hd. fold (stack_ok K) in Hd. fold (sum_esp K) in Hd.
    rewrite He, Hst in Hd. specialize (Hd HK ltac:(cbn [esp]; lia)).
    destruct (viableb (S f) (e :: St e :: K) (map t_type ts)) eqn:E.
    + destruct (IH (Sq e (St e)) K ts) as (x & rest & -> & Hs & Hv').
      * cbn [stack_ok forallb loops_ok]. rewrite He. cbn [esp] in *. rewrite (proj2 (Z.leb_le _ _) He2). exact HK.
      * cbn [sum_esp fold_right esp]. fold (sum_esp K). lia.
      * apply viable_sq. apply Hd. reflexivity.
      * exists x, rest. split; [reflexivity|]. split; [|exact Hv']. apply s_st1; [apply Hd; reflexivity|exact Hs].
    + assert (Hna : ~ viable (e :: St e :: K) (map t_type ts)) by (intros H; apply Hd in H; discriminate).
      exists [], ts. split; [reflexivity|]. split; [apply s_st0; exact Hna|]. apply viable_st in Hv. tauto.
Qed.

(** ** The start rule *)
Lemma need_query n : need [NT query] n <= Z.of_nat (antlr_fuel n).
Proof. unfold need, antlr_fuel. cbn [sum_esp fold_right esp spare]. lia. Qed.

Lemma in_grammar_viable ts : in_grammar ts = true <-> viable [NT query] (map t_type ts).
Proof.
  unfold in_grammar. apply viableb_spec; [reflexivity|]. rewrite map_length. apply need_query.
Qed.

(** Replacing the tokens of a derivation by others of the same types. *)
Lemma derives_retok e x : derives e x -> forall toks, map t_type toks = ttypes x ->
  exists x', derives e x' /\ flat_map leaves x' = toks.
Proof.
  intros Hx toks Ht.
  assert (Hv : viable [e] (map t_type toks)).
  { exists (x ++ []). split; [constructor; [exact Hx|constructor]|]. rewrite app_nil_r. symmetry. exact Ht. }
  destruct (loops_ok e) eqn:Hok.
  - destruct Hv as (fs & Hd & Hl). destruct (derives_all_viableb _ _ Hd) as (c & _ & Hv); [cbn; rewrite Hok; reflexivity|].
    unfold ttypes in Hv. destruct (viableb_sound _ _ _ Hv toks (eq_sym Hl)) as (fs' & Hd' & Hl').
    inversion Hd' as [|? ? x' y' Hx' Hy']; subst. inversion Hy'; subst. exists x'. split; [exact Hx'|].
    rewrite app_nil_r. reflexivity.
  - clear Hv Hok. revert toks Ht.
    induction Hx as [l t Hin|r ch _ IH|a b x y _ IHx _ IHy|a b x _ IH|a b x _ IH|e|e x _ IH
                 |e x y _ IHx _ IHy|e|e x y _ IHx _ IHy]; intros toks Ht.
    + destruct toks as [|k [|]]; try discriminate. cbn in Ht. injection Ht as Ht.
      exists [Leaf k]. split; [constructor; rewrite Ht; exact Hin|reflexivity].
    + unfold ttypes in Ht. cbn in Ht. rewrite app_nil_r in Ht. destruct (IH toks Ht) as (x' & H1 & H2).
      exists [Node r x']. split; [constructor; exact H1|]. cbn. rewrite app_nil_r. exact H2.
    + rewrite ttypes_app in Ht. apply map_eq_app in Ht. destruct Ht as (t1 & t2 & -> & H1 & H2).
      destruct (IHx t1 H1) as (x' & Hx1 & Hx2). destruct (IHy t2 H2) as (y' & Hy1 & Hy2).
      exists (x' ++ y'). split; [constructor; assumption|]. rewrite flat_map_app, Hx2, Hy2. reflexivity.
    + destruct (IH toks Ht) as (x' & H1 & H2). exists x'. split; [apply d_al1; exact H1|exact H2].
    + destruct (IH toks Ht) as (x' & H1 & H2). exists x'. split; [apply d_al2; exact H1|exact H2].
    + destruct toks; [|discriminate]. exists []. split; [constructor|reflexivity].
    + destruct (IH toks Ht) as (x' & H1 & H2). exists x'. split; [apply d_op1; exact H1|exact H2].
    + rewrite ttypes_app in Ht. apply map_eq_app in Ht. destruct Ht as (t1 & t2 & -> & H1 & H2).
      destruct (IHx t1 H1) as (x' & Hx1 & Hx2). destruct (IHy t2 H2) as (y' & Hy1 & Hy2).
      exists (x' ++ y'). split; [apply d_pl; assumption|]. rewrite flat_map_app, Hx2, Hy2. reflexivity.
    + destruct toks; [|discriminate]. exists []. split; [constructor|reflexivity].
    + rewrite ttypes_app in Ht. apply map_eq_app in Ht. destruct Ht as (t1 & t2 & -> & H1 & H2).
      destruct (IHx t1 H1) as (x' & Hx1 & Hx2). destruct (IHy t2 H2) as (y' & Hy1 & Hy2).
      exists (x' ++ y'). split; [apply d_st1; assumption|]. rewrite flat_map_app, Hx2, Hy2. reflexivity.
Qed.

Lemma in_grammar_conforms ts : in_grammar ts = true <-> conforms ts.
Proof.
  rewrite in_grammar_viable. split.
  - intros (fs & Hd & Hl). inversion Hd as [|? ? x y Hx Hy]; subst. inversion Hy; subst. rewrite app_nil_r in *.
    destruct (derives_retok _ _ Hx ts) as (x' & Hx' & Hl'); [symmetry; exact Hl|].
    inversion Hx' as [|r ch Hch| | | | | | | |]; subst. exists (Node query ch). split; [exact Hx'|].
    cbn in *. rewrite app_nil_r. reflexivity.
  - intros (t & Ht & <-). exists ([t] ++ []). split; [constructor; [exact Ht|constructor]|].
    cbn. rewrite app_nil_r. reflexivity.
Qed.

Lemma antlr_query_selects ts : conforms ts ->
  exists t, antlr_query ts = Some t /\ selects (NT query) [] ts [t] [] /\ parse_tree query t /\ leaves t = ts.
Proof.
  intros Hc. apply in_grammar_conforms in Hc. unfold antlr_query. rewrite Hc. apply in_grammar_viable in Hc.
  destruct (parse_e_selects (antlr_fuel (length ts)) (NT query) [] ts) as (x & r & -> & Hs & Hv); auto.
  { apply need_query. }
  assert (r = []).
  { destruct Hv as (fs & Hd & Hl). inversion Hd; subst. destruct r; [reflexivity|discriminate]. }
  subst r. destruct (selects_derives _ _ _ _ _ Hs) as [Hd Hts]. rewrite app_nil_r in Hts.
  inversion Hd; subst. exists (Node query ch). split; [reflexivity|]. split; [exact Hs|]. split; [exact Hd|].
  cbn. rewrite app_nil_r. reflexivity.
Qed.

Lemma antlr_query_none ts : ~ conforms ts -> antlr_query ts = None.
Proof.
  intros H. unfold antlr_query. destruct (in_grammar ts) eqn:E; [|reflexivity].
  apply in_grammar_conforms in E. contradiction.
Qed.

Lemma antlr_query_some ts t : antlr_query ts = Some t ->
  selects (NT query) [] ts [t] [] /\ parse_tree query t /\ leaves t = ts.
Proof.
  intros H. destruct (in_grammar ts) eqn:E.
  - apply in_grammar_conforms in E. destruct (antlr_query_selects ts E) as (t' & H' & Hr). congruence.
  - unfold antlr_query in H. rewrite E in H. discriminate.
Qed.
