(** Bracket structure of derived token sequences: what stands on the outermost level. *)
From Verif Require Import Base LexRules Lexer Grammar Antlr GramSpec GramFacts.
Local Open Scope Z_scope.

Definition opens (t : ttype) : bool := match t with L_PAREN | L_SQUARE_BRACKET => true | _ => false end.
Definition closes (t : ttype) : bool := match t with R_PAREN | R_SQUARE_BRACKET => true | _ => false end.
(** Depth after a word, [None] if it closes more than was opened. *)
Fixpoint run (d : Z) (w : list ttype) : option Z :=
  match w with
  | [] => Some d
  | t :: w' => if opens t then run (d + 1) w' else if closes t then if 1 <=? d then run (d - 1) w' else None else run d w'
  end.
(** The tokens on the outermost level. *)
Fixpoint tops (d : Z) (w : list ttype) : list ttype :=
  match w with
  | [] => []
  | t :: w' => if opens t then tops (d + 1) w' else if closes t then tops (d - 1) w' else if d =? 0 then t :: tops d w' else tops d w'
  end.
Definition balanced (w : list ttype) : Prop := run 0 w = Some 0.

Lemma run_app : forall a d b, run d (a ++ b) = match run d a with Some d' => run d' b | None => None end.
Proof.
  induction a as [|t a IH]; intros d b; cbn [run app]; [reflexivity|]. destruct (opens t); [apply IH|].
  destruct (closes t); [destruct (1 <=? d); [apply IH|reflexivity]|apply IH].
Qed.
Lemma tops_app : forall a d d' b, run d a = Some d' -> tops d (a ++ b) = tops d a ++ tops d' b.
Proof.
  induction a as [|t a IH]; intros d d' b H; cbn [run tops app] in *; [congruence|]. destruct (opens t); [apply IH; exact H|].
  destruct (closes t); [destruct (1 <=? d); [apply IH; exact H|discriminate]|]. rewrite (IH _ _ _ H). destruct (d =? 0); reflexivity.
Qed.
Lemma balanced_app a b : balanced a -> balanced b -> balanced (a ++ b).
Proof. unfold balanced. intros Ha Hb. rewrite run_app, Ha. exact Hb. Qed.
Lemma balanced_app_r a b : balanced a -> balanced (a ++ b) -> balanced b.
Proof. unfold balanced. intros Ha H. rewrite run_app, Ha in H. exact H. Qed.
Lemma tops_bal_app a b : balanced a -> tops 0 (a ++ b) = tops 0 a ++ tops 0 b.
Proof. intros H. apply tops_app. exact H. Qed.
Lemma tops_deep : forall w k k' d, run k w = Some k' -> 0 <= k -> 1 <= d -> tops (k + d) w = [].
Proof.
  induction w as [|t w IH]; intros k k' d H Hk Hd; cbn [run tops] in *; [reflexivity|]. destruct (opens t).
  - replace (k + d + 1) with (k + 1 + d) by lia. eapply IH; [exact H|lia|lia].
  - destruct (closes t).
    + destruct (Z.leb_spec 1 k); [|discriminate]. replace (k + d - 1) with (k - 1 + d) by lia. eapply IH; [exact H|lia|lia].
    + rewrite (proj2 (Z.eqb_neq (k + d) 0)) by lia. eapply IH; eassumption.
Qed.
(** The first unmatched closing bracket is unique. *)
Lemma balanced_unique : forall w w' r r' s s', balanced w -> balanced w' -> closes r = true -> closes r' = true ->
  w ++ r :: s = w' ++ r' :: s' -> w = w' /\ r = r' /\ s = s'.
Proof.
  assert (Hno : forall w v r, balanced w -> closes r = true -> ~ balanced (w ++ r :: v)).
  { unfold balanced. intros w v r Hw Hr H. rewrite run_app, Hw in H. cbn [run] in H.
    assert (Ho : opens r = false) by (destruct r; try discriminate Hr; reflexivity). rewrite Ho, Hr in H. discriminate H. }
  intros w w' r r' s s' Hw Hw' Hr Hr' H. apply app_eq_app in H. destruct H as (l & [[-> H]|[-> H]]).
  - destruct l as [|x l]; [rewrite app_nil_r in *; injection H as -> ->; auto|]. cbn in H. injection H as -> _.
    exfalso. exact (Hno w' l x Hw' Hr' Hw).
  - destruct l as [|x l]; [rewrite app_nil_r in *; injection H as -> ->; auto|]. cbn in H. injection H as -> _.
    exfalso. exact (Hno w l x Hw Hr Hw').
Qed.

(** ** Static analysis of right-hand sides *)
(** [(need, delta)]: depth needed and change of depth. *)
Fixpoint eff (e : ebnf) : option (Z * Z) :=
  match e with
  | Tk l => if forallb opens l then Some (0, 1) else if forallb closes l then Some (1, -1)
            else if existsb opens l || existsb closes l then None else Some (0, 0)
  | NT _ => Some (0, 0)
  | Sq a b => match eff a, eff b with Some (na, da), Some (nb, db) => Some (Z.max na (nb - da), da + db) | _, _ => None end
  | Al a b => match eff a, eff b with Some (na, da), Some (nb, db) => if da =? db then Some (Z.max na nb, da) else None | _, _ => None end
  | Op e | St e | Pl e => match eff e with Some (n, 0) => Some (n, 0) | _ => None end
  end.
Lemma eff_body r : eff (body r) = Some (0, 0).
Proof. destruct r; vm_compute; reflexivity. Qed.
Lemma derives_run e x : derives e x -> forall n dl, eff e = Some (n, dl) -> forall d, n <= d -> run d (ttypes x) = Some (d + dl).
Proof.
  induction 1 as [l t Hin|r ch _ IH|a b x y _ IHx _ IHy|a b x _ IH|a b x _ IH|e|e x _ IH|e x y _ IHx _ IHy|e|e x y _ IHx _ IHy];
    cbn [eff]; intros n dl He d Hd.
  - unfold ttypes. cbn [flat_map leaves app map run]. destruct (forallb opens l) eqn:Ho.
    { injection He as <- <-. rewrite forallb_forall in Ho. rewrite (Ho _ Hin). reflexivity. }
    destruct (forallb closes l) eqn:Hc.
    { injection He as <- <-. rewrite forallb_forall in Hc. specialize (Hc _ Hin). assert (H : opens (t_type t) = false) by (destruct (t_type t); try discriminate Hc; reflexivity).
      rewrite H, Hc. destruct (Z.leb_spec 1 d); [f_equal; lia|lia]. }
    destruct (existsb opens l || existsb closes l)%bool eqn:Hx; [discriminate|]. injection He as <- <-. apply orb_false_iff in Hx. destruct Hx as [H1 H2].
    assert (H : forall f, existsb f l = false -> f (t_type t) = false).
    { intros f Hf. destruct (f (t_type t)) eqn:E; [|reflexivity]. assert (existsb f l = true) by (apply existsb_exists; eauto). congruence. }
    rewrite (H _ H1), (H _ H2). f_equal. lia.
  - injection He as <- <-. change (ttypes [Node r ch]) with (map t_type (flat_map leaves ch ++ [])). rewrite app_nil_r. apply (IH 0 0 (eff_body r) d Hd).
  - rewrite ttypes_app, run_app. destruct (eff a) as [[na da]|]; [|discriminate]. destruct (eff b) as [[nb db]|]; [|discriminate]. injection He as <- <-.
    rewrite (IHx _ _ eq_refl d) by lia. rewrite (IHy _ _ eq_refl (d + da)) by lia. f_equal. lia.
  - destruct (eff a) as [[na da]|]; [|discriminate]. destruct (eff b) as [[nb db]|]; [|discriminate]. destruct (Z.eqb_spec da db); [|discriminate]. injection He as <- <-.
    apply (IH _ _ eq_refl). lia.
  - destruct (eff a) as [[na da]|]; [|discriminate]. destruct (eff b) as [[nb db]|]; [|discriminate]. destruct (Z.eqb_spec da db); [|discriminate]. injection He as <- <-. subst.
    apply (IH _ _ eq_refl). lia.
  - destruct (eff e) as [[n0 []]|]; try discriminate. injection He as <- <-. cbn. f_equal. lia.
  - destruct (eff e) as [[n0 []]|]; try discriminate. injection He as <- <-. apply (IH _ _ eq_refl). lia.
  - destruct (eff e) as [[n0 []]|] eqn:Ee; try discriminate. injection He as <- <-. rewrite ttypes_app, run_app. rewrite (IHx _ _ eq_refl d Hd).
    rewrite (IHy n0 0 ltac:(cbn [eff]; rewrite Ee; reflexivity) (d + 0) ltac:(lia)). f_equal. lia.
  - destruct (eff e) as [[n0 []]|]; try discriminate. injection He as <- <-. cbn. f_equal. lia.
  - destruct (eff e) as [[n0 []]|] eqn:Ee; try discriminate. injection He as <- <-. rewrite ttypes_app, run_app. rewrite (IHx _ _ eq_refl d Hd).
    rewrite (IHy n0 0 ltac:(cbn [eff]; rewrite Ee; reflexivity) (d + 0) ltac:(lia)). f_equal. lia.
Qed.
Definition flat (e : ebnf) : Prop := eff e = Some (0, 0).
Lemma derives_balanced e x : derives e x -> flat e -> balanced (ttypes x).
Proof. intros H He. unfold balanced. rewrite (derives_run e x H 0 0 He 0) by lia. reflexivity. Qed.

(** Lower bounds for the number of tokens of a type on the outermost level. *)
Definition rlob (ty : ttype) (r : rule) : nat :=
  match ty, r with
  | OR, expression_or | AND, expression_and | NOT, expression_not | OR, query_disjunction => 1
  | _, _ => 0
  end%nat.
Fixpoint lob (ty : ttype) (d : Z) (e : ebnf) : nat :=
  match e with
  | Tk l => if (d =? 0)%Z then match l with [t] => if ttype_eqb t ty then 1 else 0 | _ => 0 end else 0
  | NT r => if (d =? 0)%Z then rlob ty r else 0
  | Sq a b => lob ty d a + lob ty (match eff a with Some (_, da) => (d + da)%Z | None => d end) b
  | Al a b => Nat.min (lob ty d a) (lob ty d b)
  | Pl e => lob ty d e
  | Op _ | St _ => 0
  end%nat.
Definition cnt (ty : ttype) (w : list ttype) : nat := List.length (filter (ttype_eqb ty) w).
Lemma cnt_app ty a b : cnt ty (a ++ b) = (cnt ty a + cnt ty b)%nat.
Proof. unfold cnt. rewrite filter_app, app_length. reflexivity. Qed.
Lemma ttype_eqb_refl t : ttype_eqb t t = true.
Proof. unfold ttype_eqb. destruct (ttype_eq_dec t t); congruence. Qed.
Lemma cnt_in ty w : (1 <= cnt ty w)%nat <-> In ty w.
Proof.
  unfold cnt. induction w as [|t w IH]; cbn; [lia|]. unfold ttype_eqb at 1. destruct (ttype_eq_dec ty t); cbn [List.length].
  - split; [intros _; left; congruence|lia].
  - rewrite IH. split; [auto|]. intros [H|H]; [congruence|exact H].
Qed.
Definition plain (ty : ttype) : Prop := opens ty = false /\ closes ty = false.
Lemma rlob_ok ty r : In ty [AND; OR; NOT] -> (rlob ty r <= lob ty 0 (body r))%nat.
Proof. intros [<-|[<-|[<-|[]]]]; destruct r; vm_compute; repeat constructor. Qed.
Lemma derives_lob ty e x : In ty [AND; OR; NOT] -> derives e x -> forall n dl d, eff e = Some (n, dl) -> n <= d -> 0 <= d ->
  (lob ty d e <= cnt ty (tops d (ttypes x)))%nat.
Proof.
  intros Hty. assert (Hp : opens ty = false /\ closes ty = false) by (destruct Hty as [<-|[<-|[<-|[]]]]; split; reflexivity).
  induction 1 as [l t Hin|r ch Hd IH|a b x y Hx IHx Hy IHy|a b x _ IH|a b x _ IH|e|e x _ IH|e x y Hx IHx Hy IHy|e|e x y Hx IHx Hy IHy];
    intros n dl d He Hn H0; cbn [lob]; try lia.
  - destruct (Z.eqb_spec d 0) as [->|]; [|lia]. destruct l as [|t1 [|]]; [lia| |lia]. destruct Hin as [Hin|[]].
    unfold ttype_eqb at 1. destruct (ttype_eq_dec t1 ty); [|lia]. subst. unfold ttypes. cbn. rewrite (proj1 Hp), (proj2 Hp). cbn.
    rewrite ttype_eqb_refl. cbn. lia.
  - destruct (Z.eqb_spec d 0) as [->|Hne].
    + pose proof (rlob_ok ty r Hty). specialize (IH 0 0 0 (eff_body r) ltac:(lia) ltac:(lia)).
      change (ttypes [Node r ch]) with (map t_type (flat_map leaves ch ++ [])). rewrite app_nil_r. fold (ttypes ch). lia.
    + lia.
  - cbn [eff] in He. destruct (eff a) as [[na da]|] eqn:Ea; [|discriminate]. destruct (eff b) as [[nb db]|] eqn:Eb; [|discriminate]. injection He as <- <-.
    rewrite ttypes_app, (tops_app _ _ _ _ (derives_run _ _ Hx _ _ Ea d ltac:(lia))), cnt_app.
    specialize (IHx _ _ d eq_refl ltac:(lia) H0). assert (0 <= d + da).
    { assert (Hk : forall w d d', 0 <= d -> run d w = Some d' -> 0 <= d').
      { clear. induction w as [|t w IH]; intros d d' H; cbn [run]; [congruence|]. destruct (opens t); [apply IH; lia|].
        destruct (closes t); [destruct (Z.leb_spec 1 d); [apply IH; lia|discriminate]|apply IH; lia]. }
      eapply Hk; [exact H0|]. exact (derives_run _ _ Hx _ _ Ea d ltac:(lia)). }
    specialize (IHy _ _ (d + da) eq_refl ltac:(lia) H). lia.
  - cbn [eff] in He. destruct (eff a) as [[na da]|] eqn:Ea; [|discriminate]. destruct (eff b) as [[nb db]|] eqn:Eb; [|discriminate].
    destruct (Z.eqb_spec da db); [|discriminate]. injection He as <- <-. specialize (IH _ _ d eq_refl ltac:(lia) H0). lia.
  - cbn [eff] in He. destruct (eff a) as [[na da]|] eqn:Ea; [|discriminate]. destruct (eff b) as [[nb db]|] eqn:Eb; [|discriminate].
    destruct (Z.eqb_spec da db); [|discriminate]. injection He as <- <-. specialize (IH _ _ d eq_refl ltac:(lia) H0). lia.
  - cbn [eff] in He. destruct (eff e) as [[n0 []]|] eqn:Ee; try discriminate. injection He as <- <-.
    rewrite ttypes_app, (tops_app _ _ _ _ (derives_run _ _ Hx _ _ Ee d ltac:(lia))), cnt_app. specialize (IHx _ _ d eq_refl ltac:(lia) H0). lia.
Qed.
(** Types that do not occur on the outermost level. *)
Definition rnob (ty : ttype) (r : rule) : bool :=
  match ty with
  | OR => match r with
          | expression_or | expression_and | expression_not | expression | query_disjunction | main_query | query => false | _ => true end
  | AND => match r with expression_or | expression_and | expression_not | expression => false | _ => true end
  | NOT => match r with expression_or | expression_and | expression_not | expression => false | _ => true end
  | EOF => match r with query => false | _ => true end
  | _ => false
  end.
Fixpoint nob (ty : ttype) (d : Z) (e : ebnf) : bool :=
  match e with
  | Tk l => negb (d =? 0) || negb (tt_in ty l)
  | NT r => (0 <? d) || rnob ty r
  | Sq a b => nob ty d a && nob ty (match eff a with Some (_, da) => d + da | None => d end) b
  | Al a b => nob ty d a && nob ty d b
  | Pl e | Op e | St e => nob ty d e
  end.
Lemma rnob_ok ty r : In ty [AND; OR; NOT; EOF] -> rnob ty r = true -> nob ty 0 (body r) = true.
Proof. intros [<-|[<-|[<-|[<-|[]]]]]; destruct r; vm_compute; auto. Qed.
Lemma derives_nob ty e x : In ty [AND; OR; NOT; EOF] -> derives e x -> forall n dl d, eff e = Some (n, dl) -> n <= d -> 0 <= d -> nob ty d e = true ->
  ~ In ty (tops d (ttypes x)).
Proof.
  intros Hty. assert (Hp : opens ty = false /\ closes ty = false) by (destruct Hty as [<-|[<-|[<-|[<-|[]]]]]; split; reflexivity).
  assert (Hk : forall w d d', 0 <= d -> run d w = Some d' -> 0 <= d').
  { clear. induction w as [|t w IH]; intros d d' H; cbn [run]; [congruence|]. destruct (opens t); [apply IH; lia|].
    destruct (closes t); [destruct (Z.leb_spec 1 d); [apply IH; lia|discriminate]|apply IH; lia]. }
  induction 1 as [l t Hin|r ch Hd IH|a b x y Hx IHx Hy IHy|a b x _ IH|a b x _ IH|e|e x _ IH|e x y Hx IHx Hy IHy|e|e x y Hx IHx Hy IHy];
    intros n dl d He Hn H0; cbn [nob]; intros Hb; try (cbn; tauto).
  - unfold ttypes. cbn [flat_map leaves app map tops]. destruct (opens (t_type t)); [cbn; tauto|]. destruct (closes (t_type t)); [cbn; tauto|].
    destruct (d =? 0); [|cbn; tauto]. cbn in Hb. intros [Hx|[]]. rewrite <- Hx in Hb. rewrite (proj2 (tt_in_spec _ _) Hin) in Hb. discriminate.
  - change (ttypes [Node r ch]) with (map t_type (flat_map leaves ch ++ [])). rewrite app_nil_r. fold (ttypes ch). destruct (Z.ltb_spec 0 d) as [Hlt|Hge].
    + replace d with (0 + d) by lia. rewrite (tops_deep _ 0 0 d (derives_balanced _ _ Hd (eff_body r))) by lia. cbn. tauto.
    + assert (d = 0) by lia. subst d. apply (IH 0 0 0 (eff_body r)); try lia. apply rnob_ok; assumption.
  - cbn [eff] in He. destruct (eff a) as [[na da]|] eqn:Ea; [|discriminate]. destruct (eff b) as [[nb db]|] eqn:Eb; [|discriminate]. injection He as <- <-.
    apply andb_true_iff in Hb. destruct Hb as [B1 B2]. pose proof (derives_run _ _ Hx _ _ Ea d ltac:(lia)) as Hr.
    rewrite ttypes_app, (tops_app _ _ _ _ Hr), in_app_iff. intros [Hi|Hi].
    + exact (IHx _ _ d eq_refl ltac:(lia) H0 B1 Hi).
    + exact (IHy _ _ (d + da) eq_refl ltac:(lia) (Hk _ _ _ H0 Hr) B2 Hi).
  - cbn [eff] in He. destruct (eff a) as [[na da]|] eqn:Ea; [|discriminate]. destruct (eff b) as [[nb db]|] eqn:Eb; [|discriminate].
    destruct (Z.eqb_spec da db); [|discriminate]. injection He as <- <-. apply andb_true_iff in Hb. exact (IH _ _ d eq_refl ltac:(lia) H0 (proj1 Hb)).
  - cbn [eff] in He. destruct (eff a) as [[na da]|] eqn:Ea; [|discriminate]. destruct (eff b) as [[nb db]|] eqn:Eb; [|discriminate].
    destruct (Z.eqb_spec da db); [|discriminate]. injection He as <- <-. apply andb_true_iff in Hb. exact (IH _ _ d eq_refl ltac:(lia) H0 (proj2 Hb)).
  - cbn [eff] in He. destruct (eff e) as [[n0 []]|] eqn:Ee; try discriminate. injection He as <- <-. exact (IH _ _ d eq_refl ltac:(lia) H0 Hb).
  - cbn [eff] in He. destruct (eff e) as [[n0 []]|] eqn:Ee; try discriminate. injection He as <- <-.
    pose proof (derives_run _ _ Hx _ _ Ee d ltac:(lia)) as Hr. replace (d + 0) with d in Hr by lia. rewrite ttypes_app, (tops_app _ _ _ _ Hr), in_app_iff. intros [Hi|Hi].
    + exact (IHx _ _ d eq_refl ltac:(lia) H0 Hb Hi).
    + refine (IHy n0 0 d _ ltac:(lia) H0 _ Hi); cbn; rewrite ?Ee; auto.
  - cbn [eff] in He. destruct (eff e) as [[n0 []]|] eqn:Ee; try discriminate. injection He as <- <-.
    pose proof (derives_run _ _ Hx _ _ Ee d ltac:(lia)) as Hr. replace (d + 0) with d in Hr by lia. rewrite ttypes_app, (tops_app _ _ _ _ Hr), in_app_iff. intros [Hi|Hi].
    + exact (IHx _ _ d eq_refl ltac:(lia) H0 Hb Hi).
    + refine (IHy n0 0 d _ ltac:(lia) H0 _ Hi); cbn; rewrite ?Ee; auto.
Qed.
