(** The programs of Cached.v compute what the model without tables computes. *)
From Coq Require Import String.
From Verif Require Import Base Regex LexRules Lexer Grammar Antlr Ast Builder Parser GenParser Atn AllStar ContextData Recover Cache CacheFacts Cached
  ParseSpec GramSpec PropsAllStar PropsRecover.
Local Open Scope Z_scope.

Lemma eval_bind {A B} (p : dprog A) (k : A -> dprog B) : evalp (bind p k) = evalp (k (evalp p)).
Proof. induction p as [r|d w j IH]; [reflexivity|]. cbn [bind Cache.eval]. apply IH. Qed.

(** ** Lexer *)
Lemma walk_head s w : exists p, fst (dwalk s w) = s :: p.
Proof. destruct w as [|t w]; cbn [Cache.walk]; [exists []; reflexivity|]. destruct (dstep s t) as [s'|]; [|exists []; reflexivity]. destruct (dstop s'); [exists [s']; reflexivity|]. eexists. reflexivity. Qed.
Lemma lex_walk : forall s rs n prev, exec_atn rs s n prev =
  fold_left (fun r s => (match s with LexS rs => match accepting rs with Some ty => Some (ty, S (snd r)) | None => fst r end | _ => fst r end, S (snd r))) (tl (fst (dwalk (LexS rs) (map Char s)))) (prev, n).
Proof.
  induction s as [|c s IH]; intros rs n prev; [reflexivity|]. cbn [exec_atn map Cache.walk dstep]. destruct (advance c rs) as [|x rs'] eqn:Ea; [reflexivity|].
  cbn [dstop fst tl]. destruct (walk_head (LexS (x :: rs')) (map Char s)) as [p Hp]. rewrite IH, Hp. cbn [tl fold_left fst snd]. reflexivity.
Qed.
Lemma match_right s : match_of (dwalk (dstart LexD) (map Char s)) = exec_atn lex_rules s 0 None.
Proof. symmetry. apply lex_walk. Qed.
Lemma eval_ask {A} d w (k : list dstate * ending -> dprog A) : evalp (ask d w k) = evalp (k (dwalk (dstart d) w)).
Proof. reflexivity. Qed.
Definition lex_next_p (f : nat) (pos line col : Z) (s : pystr) (r : option (ttype * nat) * nat) : dprog (list lexeme) :=
  match r with
  | (Some (ty, n), _) =>
      let txt := firstn n s in
      let t := mkTok ty txt pos (pos + Z.of_nat n - 1) line col in
      let lc := advance_pos line col txt in
      bind (lex_p f (pos + Z.of_nat n) (fst lc) (snd lc) (skipn n s)) (fun l => ret ((match ty with Space => LxSkip t | _ => LxTok t end) :: l))
  | (None, n) =>
      let txt := firstn (S n) s in
      let lc := advance_pos line col txt in
      bind (lex_p f (pos + zlen txt) (fst lc) (snd lc) (skipn (S n) s)) (fun l => ret (LxErr pos line col txt :: l))
  end.
Definition lex_next (f : nat) (pos line col : Z) (s : pystr) (r : option (ttype * nat) * nat) : list lexeme :=
  match r with
  | (Some (ty, n), _) =>
      let txt := firstn n s in
      let t := mkTok ty txt pos (pos + Z.of_nat n - 1) line col in
      let lc := advance_pos line col txt in
      (match ty with Space => LxSkip t | _ => LxTok t end) :: lex_loop f (pos + Z.of_nat n) (fst lc) (snd lc) (skipn n s)
  | (None, n) =>
      let txt := firstn (S n) s in
      let lc := advance_pos line col txt in
      LxErr pos line col txt :: lex_loop f (pos + zlen txt) (fst lc) (snd lc) (skipn (S n) s)
  end.
Lemma lex_p_next f pos line col s : lex_p (S f) pos line col s = match s with [] => ret [] | _ :: _ => ask LexD (map Char s) (fun a => lex_next_p f pos line col s (match_of a)) end.
Proof. reflexivity. Qed.
Lemma lex_loop_next f pos line col s : lex_loop (S f) pos line col s = match s with [] => [] | _ :: _ => lex_next f pos line col s (exec_atn lex_rules s 0 None) end.
Proof. reflexivity. Qed.
Lemma lex_next_eval f pos line col s r : (forall pos line col s, evalp (lex_p f pos line col s) = lex_loop f pos line col s) -> evalp (lex_next_p f pos line col s r) = lex_next f pos line col s r.
Proof. intros IH. destruct r as [[[ty n]|] m]; unfold lex_next_p, lex_next; cbv zeta; rewrite eval_bind, IH; reflexivity. Qed.
Lemma lex_eval : forall fuel pos line col s, evalp (lex_p fuel pos line col s) = lex_loop fuel pos line col s.
Proof.
  induction fuel as [|f IH]; intros pos line col s; [reflexivity|]. rewrite lex_p_next, lex_loop_next. rewrite <- match_right. generalize (lex_next_eval f pos line col s) (eval_ask LexD (map Char s) (fun a => lex_next_p f pos line col s (match_of a))). generalize (dwalk (dstart LexD) (map Char s)). intros a H1 H2. destruct s as [|c s]; [reflexivity|].
  etransitivity; [exact H2|]. apply H1. exact IH.
Qed.

(** ** Prediction *)
Lemma last_cons {A} (a : A) l d : l <> [] -> last (a :: l) d = last l d.
Proof. destruct l; [congruence|reflexivity]. Qed.
Lemma exec_walk c d w0 : forall w ks v n, exec parser_atn (collect (starts parser_atn true (map (follow_of parser_atn) c) 1 (alternatives parser_atn d))) w0 ks w n =
  (let a := dwalk (ParS ks v) (map Tok w) in let m := (n + Nat.pred (List.length (fst a)))%nat in
   match snd a, last (fst a) (LexS []) with
   | AtEnd, _ => NoViable m
   | Failed, ParS ks _ => no_viable parser_atn ks m
   | Stopped, ParS _ (Unique i) => Alt i
   | Stopped, _ => exec_full parser_atn (collect (starts parser_atn true (map (follow_of parser_atn) c) 1 (alternatives parser_atn d))) w0 0
   | _, _ => NoViable m
   end).
Proof.
  induction w as [|t w IH]; intros ks v n; cbn [AllStar.exec map Cache.walk dstep]; [cbn; rewrite Nat.add_0_r; reflexivity|].
  destruct (reach_set parser_atn false ks (tnum t)) as [|k0 ks'] eqn:Er; [cbn; rewrite Nat.add_0_r; reflexivity|].
  destruct (unique_alt (k0 :: ks')) as [i|]; [reflexivity|]. destruct (sll_conflict parser_atn (k0 :: ks')); [reflexivity|]. cbn [dstop fst snd].
  rewrite (IH (k0 :: ks') Open (S n)). cbv zeta. destruct (walk_head (ParS (k0 :: ks') Open) (map Tok w)) as [p Hp]. rewrite last_cons by (rewrite Hp; discriminate). cbn [List.length Nat.pred]. rewrite Hp. cbn [List.length Nat.pred].
  replace (S n + List.length p)%nat with (n + S (List.length p))%nat by lia. reflexivity.
Qed.
Lemma predicted_right d c w : predicted d c w (dwalk (dstart (ParD d)) (map Tok w)) = adaptive_predict parser_atn d c w.
Proof. unfold adaptive_predict. rewrite (exec_walk c d w w _ Open 0). reflexivity. Qed.
Lemma seen_walk c d w0 : forall w ks v n, seen parser_atn (collect (starts parser_atn true (map (follow_of parser_atn) c) 1 (alternatives parser_atn d))) w0 ks w n =
  (let a := dwalk (ParS ks v) (map Tok w) in let m := (n + Nat.pred (List.length (fst a)))%nat in
   match snd a, last (fst a) (LexS []) with
   | AtEnd, _ => m
   | Failed, _ => S m
   | Stopped, ParS _ (Unique i) => m
   | Stopped, _ => Nat.max (seen_full parser_atn (collect (starts parser_atn true (map (follow_of parser_atn) c) 1 (alternatives parser_atn d))) w0) m
   end).
Proof.
  induction w as [|t w IH]; intros ks v n; cbn [seen map Cache.walk dstep]; [cbn; rewrite Nat.add_0_r; reflexivity|].
  destruct (reach_set parser_atn false ks (tnum t)) as [|k0 ks'] eqn:Er; [cbn; rewrite Nat.add_0_r; reflexivity|].
  destruct (unique_alt (k0 :: ks')) as [i|]; [cbn; lia|]. destruct (sll_conflict parser_atn (k0 :: ks')); [cbn [dstop fst snd last List.length Nat.pred]; replace (n + 1)%nat with (S n) by lia; reflexivity|]. cbn [dstop fst snd].
  rewrite (IH (k0 :: ks') Open (S n)). cbv zeta. destruct (walk_head (ParS (k0 :: ks') Open) (map Tok w)) as [p Hp]. rewrite last_cons by (rewrite Hp; discriminate). cbn [List.length Nat.pred]. rewrite Hp. cbn [List.length Nat.pred].
  replace (S n + List.length p)%nat with (n + S (List.length p))%nat by lia. reflexivity.
Qed.
Lemma looked_right d c w : looked d c w (dwalk (dstart (ParD d)) (map Tok w)) = lookahead parser_atn d c w.
Proof. unfold lookahead. rewrite (seen_walk c d w w _ Open 0). reflexivity. Qed.

(** ** Error reports *)
Opaque expected next_has next_eps recovery_set adaptive_predict lookahead set_text predicted looked Cache.walk dstart.
Lemma sync_eval n c s k k' : (forall s, evalp (k s) = k' s) -> evalp (sync_p n c s k) = sync_ parser_atn n c s k'.
Proof.
  intros H. unfold sync_p, sync_. destruct (p_mode s); [apply H|]. destruct (_ || _); [apply H|]. destruct (existsb _ [3; 4; 5; 10]); [destruct (delete parser_atn n c s) as [s' [|]]; [apply H|reflexivity]|]. destruct (existsb _ [9; 11]); apply H.
Qed.
Lemma predict_eval n d c s k k' : (forall i s, evalp (k i s) = k' i s) -> evalp (predict_p n d c s k) = predict_ parser_atn n d c s k'.
Proof.
  intros H. unfold predict_p, predict_. cbn [Cache.eval]. rewrite looked_right, predicted_right. destruct (adaptive_predict parser_atn d c (types_of (p_rest s))); [apply H|reflexivity].
Qed.
Lemma rthen_eval x k k' y : evalp x = y -> (forall s, evalp (k s) = k' s) -> evalp (rthen_p x k) = rthen y k'.
Proof. intros <- H. unfold rthen_p, rthen. rewrite eval_bind. destruct (evalp x); [apply H|reflexivity|reflexivity]. Qed.
Lemma rrun_eval : forall f x c s, evalp (rrun_p f x c s) = rrun parser_atn f x c s.
Proof.
  induction f as [|f IH]; intros x c s; [reflexivity|]. destruct x; cbn [rrun_p rrun]; try reflexivity.
  - unfold caught_p. rewrite eval_bind, IH. reflexivity.
  - apply rthen_eval; auto.
  - apply sync_eval. intros s'. destruct (find _ cases); [apply IH|reflexivity].
  - apply sync_eval. intros s'. destruct (la_test _ _); [apply IH|reflexivity].
  - apply sync_eval. intros s'. apply predict_eval. intros [|j] s2; [reflexivity|]. destruct (nth_error alts j); [apply IH|reflexivity].
  - apply sync_eval. intros s'. apply predict_eval. intros i s2. destruct (Nat.eqb i 1); [apply IH|reflexivity].
  - apply sync_eval. intros s'. apply IH.
  - apply sync_eval. intros s'. apply IH.
  - apply rthen_eval; [apply IH|]. intros s'. apply sync_eval. intros s2. destruct (la_test _ _); [apply IH|reflexivity].
  - apply rthen_eval; [apply IH|]. intros s'. apply sync_eval. intros s2. apply predict_eval. intros i s3. destruct (Nat.eqb i 1); [apply IH|reflexivity].
Qed.
Lemma calls_eval ts : evalp (calls_p ts) = parser_calls ts.
Proof. unfold calls_p, parser_calls, recovering, caught_p. rewrite !eval_bind, rrun_eval. reflexivity. Qed.

(** ** The parse tree *)
Lemma gen_predict_eval d c ts k k' : (forall i, evalp (k i) = k' i) -> evalp (gen_predict d c ts k) = k' (adaptive parser_atn d c (types_of ts)).
Proof. intros H. unfold gen_predict. cbn [Cache.eval]. rewrite predicted_right. apply H. Qed.
Lemma gthen_eval x y k k' : evalp x = y -> (forall r, evalp (k r) = k' r) -> evalp (gthen x k) = then_ y k'.
Proof. intros <- H. unfold gthen, then_. rewrite eval_bind. destruct (evalp x); [|reflexivity|reflexivity]. rewrite eval_bind, H. destruct (k' rest); reflexivity. Qed.
Notation runs := (run (adaptive parser_atn) (sync_passes parser_atn)).
Lemma run_eval : forall f x c ts, evalp (run_p f x c ts) = runs f x c ts.
Proof.
  induction f as [|f IH]; intros x c ts; [reflexivity|]. destruct x; cbn [run_p run]; try reflexivity.
  - rewrite eval_bind, IH. destruct (runs f (method r) (n :: c) ts); reflexivity.
  - apply gthen_eval; auto.
  - destruct (sync_passes _ _ _); [|reflexivity]. destruct (find _ cases); [apply IH|reflexivity].
  - destruct (sync_passes _ _ _); [|reflexivity]. destruct (la_test _ _); [apply IH|reflexivity].
  - destruct (sync_passes _ _ _); [|reflexivity]. rewrite (gen_predict_eval d c ts _ (fun i => match i with Some (S i) => match nth_error alts i with Some s => runs f s c ts | None => GOk [] ts end | Some O => GOk [] ts | None => GErr end)); [reflexivity|].
    intros [[|i]|]; [reflexivity| |reflexivity]. destruct (nth_error alts i); [apply IH|reflexivity].
  - destruct (sync_passes _ _ _); [|reflexivity]. rewrite (gen_predict_eval d c ts _ (fun i => match i with Some 1%nat => runs f x c ts | Some _ => GOk [] ts | None => GErr end)); [reflexivity|].
    intros [[|[|i]]|]; [reflexivity|apply IH|reflexivity|reflexivity].
  - destruct (sync_passes _ _ _); [|reflexivity]. apply IH.
  - destruct (sync_passes _ _ _); [|reflexivity]. apply IH.
  - apply gthen_eval; [apply IH|]. intros r. destruct (sync_passes _ _ _); [|reflexivity]. destruct (la_test _ _); [apply IH|reflexivity].
  - apply gthen_eval; [apply IH|]. intros r. destruct (sync_passes _ _ _); [|reflexivity]. rewrite (gen_predict_eval d c r _ (fun i => match i with Some 1%nat => runs f (LoopPred x m d) c r | Some _ => GOk [] r | None => GErr end)); [reflexivity|].
    intros [[|[|i]]|]; [reflexivity|apply IH|reflexivity|reflexivity].
Qed.
Lemma gen_eval ts : evalp (gen_p ts) = gen_query (adaptive parser_atn) (sync_passes parser_atn) ts.
Proof. unfold gen_p, gen_query. rewrite eval_bind, run_eval. destruct (runs _ _ _ _); reflexivity. Qed.

(** ** Parsing *)
Lemma parse_eval E P q : evalp (parse_p E P q) = (errors_after (antlr_env E) P q, parse (antlr_env E) P q).
Proof.
  unfold parse_p. rewrite eval_bind, lex_eval. change (lex_loop (List.length q) 0 1 0 q) with (lexemes q). cbv zeta. change (lx_tokens (lexemes q) ++ [eof_token q]) with (tokens q). rewrite eval_bind, calls_eval.
  change (interleave (tokens q) (parser_calls (tokens q)) (lx_errors (lexemes q))) with (antlr_calls q). unfold errors_after, parse, parser_parse, parse_body, syntax_errors. cbn [fst snd qp_errors].
  rewrite C64_listener. change (e_penv (antlr_env E)) with E. destruct (antlr_calls q) as [|x l] eqn:Ea; cbn [map]; [|reflexivity].
  rewrite eval_bind, gen_eval. destruct (proj1 (C64_raises q) Ea) as [_ Hc]. destruct (C61_accepts q Hc) as (t & Ht & Hg). rewrite Hg, Ht. reflexivity.
Qed.
