(** A static bound for the number of predictions. *)
From Verif Require Import Base LexRules Lexer Grammar Antlr Parser GenParser Atn AllStar AllStarFacts AllStarLoop AllStarNet GenFacts Recover RecoverPred RecoverNeed.
Local Open Scope Z_scope.

(** Constants: how many predictions a statement can make without progress, and per unit of progress. *)
Definition wC : nat := 3.
Definition wK : nat := 19.
Definition maxes (l : list (option (nat * nat))) : option (nat * nat) :=
  fold_right (fun x r => match x, r with Some (w, p), Some (w', p') => Some (Nat.max w w', Nat.max p p') | _, _ => None end) (Some (O, O)) l.
Definition progresses (k : nat) (G : list ttype) (x : stm) : bool := match need k G x with Some (_, c, _) => c | None => false end.
(** [(W, R)]: at most [W] predictions without progress; with progress, at most [R] more than [wK] for every unit but the first. *)
Fixpoint work (k : nat) (G : list ttype) (x : stm) : option (nat * nat) :=
  match k with
  | O => None
  | S k =>
    match x with
    | Match _ _ | MatchSet _ _ _ => Some (O, O)
    | Call _ r => match work k G (method r) with Some (w, p) => Some (w, Nat.max w p) | None => None end
    | Seq a b =>
        match work k G a with
        | Some (w, p) =>
            if progresses k G a then Some (w, p + wC)%nat
            else match work k G b with Some (w', p') => Some (w + w', Nat.max (w + p') (p + wC))%nat | None => None end
        | None => None
        end
    | Switch m cases =>
        match maxes (map (fun q => let G' := filter (la_test (fst q)) G in if empty G' then Some (O, O) else work k G' (snd q)) cases) with
        | Some (w, p) => Some (w, Nat.max wC p)
        | None => None
        end
    | IfLa m x b =>
        let G' := filter (la_test x) G in
        if empty G' then Some (O, wC) else match work k G' b with Some (w, p) => Some (w, Nat.max wC p) | None => None end
    | Pred m d l =>
        match maxes (map (fun q => let G' := filter (alt_ok (fst q)) G in if empty G' then Some (O, O) else work k G' (snd q)) (combine (alternatives parser_atn d) l)) with
        | Some (w, p) => Some (S w, S (Nat.max wC p))
        | None => None
        end
    | PredOpt m d b =>
        let G' := filter (alt_ok (hd 0 (alternatives parser_atn d))) G in
        if empty G' then Some (1, S wC)%nat else match work k G' b with Some (w, p) => Some (S w, S (Nat.max wC p)) | None => None end
    | DoLa m b m' x => match work k G (LoopLa b m' x) with Some (w, p) => Some (w, Nat.max wC p) | None => None end
    | DoPred m b m' d => match work k G (LoopPred b m' d) with Some (w, p) => Some (w, Nat.max wC p) | None => None end
    | LoopLa b m x =>
        match work k G b with
        | Some (w, p) =>
            if progresses k G b then Some (w, p + wC)%nat
            else match work k (filter (la_test x) all_ttypes) b with Some (w', p') => Some (w + w', Nat.max (p + wC) (w + (p' + wC)))%nat | None => None end
        | None => None
        end
    | LoopPred b m d =>
        match work k G b with
        | Some (w, p) =>
            if progresses k G b then Some (w, S (p + wC))%nat
            else match work k (filter (alt_ok (hd 0 (alternatives parser_atn d))) all_ttypes) b with Some (w', p') => Some (S (w + w'), Nat.max (S (p + wC)) (S (w + S (p' + wC))))%nat | None => None end
        | None => None
        end
    end
  end.
Fixpoint subs (x : stm) : list stm :=
  x :: match x with
  | Match _ _ | MatchSet _ _ _ | Call _ _ => []
  | Seq a b => subs a ++ subs b
  | Switch _ l => flat_map (fun q => subs (snd q)) l
  | IfLa _ _ b | PredOpt _ _ b => subs b
  | Pred _ _ l => flat_map subs l
  | DoLa _ b m x => LoopLa b m x :: subs b
  | DoPred _ b m d => LoopPred b m d :: subs b
  | LoopLa b _ _ | LoopPred b _ _ => subs b
  end.
Definition fits (x : stm) : bool := match work 60 all_ttypes x with Some (w, p) => Nat.leb w wC && Nat.leb p (wK + wC) | None => false end.
Definition sound (x : stm) : bool := forallb fits (subs x).
Lemma sound_methods : forallb (fun r => negb (not_query r) || sound (method r)) rule_names = true.
Proof. vm_compute. reflexivity. Qed.
Lemma sound_query : sound (Call 46 main_query) = true /\ sound (IfLa 49 (la 18) (Seq (Match 47 WITHIN) (Call 48 within_part))) = true.
Proof. split; vm_compute; reflexivity. Qed.
Lemma sound_method r : not_query r = true -> sound (method r) = true.
Proof.
  intros H. assert (Hi : In r rule_names) by (destruct r; cbn; tauto). pose proof (proj1 (forallb_forall _ _) sound_methods r Hi) as G. cbv beta in G. rewrite H in G. exact G.
Qed.
Lemma sound_inv x : sound x = true -> fits x = true /\
  match x with
  | Match _ _ | MatchSet _ _ _ | Call _ _ => True
  | Seq a b => sound a = true /\ sound b = true
  | Switch n l => forallb (fun q => sound (snd q)) l = true
  | IfLa n _ b | PredOpt n _ b => sound b = true
  | Pred n _ l => forallb sound l = true
  | DoLa n b m x => sound (LoopLa b m x) = true
  | DoPred n b m d => sound (LoopPred b m d) = true
  | LoopLa b m _ | LoopPred b m _ => sound b = true
  end.
Proof.
  unfold sound. destruct x; cbn [subs forallb]; intros H; apply andb_prop in H; destruct H as [H1 H2]; (split; [exact H1|]); auto.
  - rewrite forallb_app in H2. apply andb_prop in H2. exact H2.
  - clear H1. induction cases as [|q l IH]; [reflexivity|]. cbn [flat_map forallb] in *. rewrite forallb_app in H2. apply andb_prop in H2. destruct H2 as [H2 H3]. rewrite H2. apply IH. exact H3.
  - clear H1. induction alts as [|q l IH]; [reflexivity|]. cbn [flat_map forallb] in *. rewrite forallb_app in H2. apply andb_prop in H2. destruct H2 as [H2 H3]. rewrite H2. apply IH. exact H3.
Qed.
