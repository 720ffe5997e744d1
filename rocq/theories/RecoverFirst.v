(** Where the parser is when it reports its first error. *)
From Coq Require Import String.
From Verif Require Import Base LexRules Lexer Grammar Antlr GramSpec GramFacts SelFacts Parser GenParser Atn AtnFacts AtnNets GenNet AllStar AllStarFacts AllStarLoop AllStarNet GenFacts Recover RecoverPred RecoverNeed RecoverTerm RecoverInv RecoverSim RecoverComp RecoverView.
Local Open Scope Z_scope.
Opaque parser_atn expected next_has next_eps recovery_set adaptive_predict lookahead set_text all_done inner inner_ok depth.

(** ** What the first call says *)
Notation rr := (rrun parser_atn).
Definition expecting (t : token) (p : ttype -> bool) : list pystr :=
  [u "mismatched input " ++ quoted (t_text t) ++ u " expecting " ++ set_text p;
   u "extraneous input " ++ quoted (t_text t) ++ u " expecting " ++ set_text p;
   u "missing " ++ set_text p ++ u " at " ++ quoted (t_text t)].
Definition prefix (ts : list token) (w : list ttype) : Prop := exists z, viable [NT query] (types_of ts ++ w ++ z).
Definition okcall (ts : list token) (x : nat * lcall) : Prop :=
  exists before t after, ts = before ++ t :: after /\ prefix before [] /\
    ((exists p, lc_token (snd x) = Some t /\ p (t_type t) = false /\ (exists y, p y = true) /\ (forall y, p y = true -> prefix before [y]) /\ In (lc_msg (snd x)) (expecting t p)) \/
     (exists mid t' tail, t :: after = mid ++ t' :: tail /\ prefix before (types_of mid) /\ lc_token (snd x) = Some t' /\
        lc_msg (snd x) = u "no viable alternative at input " ++ quoted (match t_type t with EOF => u "<EOF>" | _ => concat (map t_text (before_eof (mid ++ [t']))) end))).
Section First.
  Variable ts : list token.
  Hypothesis Hts : to_eof (types_of ts).
  Definition clean (s : pst) : Prop := wfp s /\ p_mode s = false /\ p_calls s = [].
  Definition at_ (s : pst) (K : list ebnf) : Prop := exists pre, ts = pre ++ p_rest s /\ forall z, viable K z -> viable [NT query] (types_of pre ++ z).
  Definition first_ok (s : pst) : Prop := exists l x, p_calls s = l ++ [x] /\ okcall ts x.
  Lemma first_ext s s' : first_ok s -> ext s s' -> first_ok s'.
  Proof. intros (l & x & E & H) (l' & E'). exists (l' ++ l), x. rewrite E', E, app_assoc. auto. Qed.
  Lemma at_weak s s' K K' : p_rest s' = p_rest s -> (forall z, viable K' z -> viable K z) -> at_ s K -> at_ s' K'.
  Proof. intros E H (pre & Hp & HK). exists pre. rewrite E. auto. Qed.
  Lemma query_eof w : viable [NT query] w -> In EOF w.
  Proof.
    intros H. apply viable_nt in H. cbn [body] in H. apply viable_sq in H. apply viable_cons_inv in H. destruct H as (w1 & w2 & -> & _ & H). apply viable_sq in H. apply viable_cons_inv in H. destruct H as (w3 & w4 & -> & _ & H).
    apply viable_tk_inv in H. destruct H as (t & w5 & -> & [<-|[]] & _). apply in_or_app. right. apply in_or_app. right. left. reflexivity.
  Qed.
  Lemma pre_eof pre r : to_eof (types_of (pre ++ r)) -> r <> [] -> ~ In EOF (types_of pre).
  Proof.
    induction pre as [|t pre IH]; intros H Hr Hin; [destruct Hin|]. cbn [app types_of map] in H. apply to_eof_cons in H. destruct H as (H1 & _ & H3).
    assert (Hne : types_of (pre ++ r) <> []) by (destruct pre; [destruct r; [contradiction|discriminate]|discriminate]).
    destruct Hin as [E|Hin]; [apply Hne; apply H1; exact E|]. exact (IH (H3 Hne) Hr Hin).
  Qed.
  Lemma at_prefix pre s K : wfp s -> ts = pre ++ p_rest s -> (forall z, viable K z -> viable [NT query] (types_of pre ++ z)) -> ~ viable K [].
  Proof.
    intros Hw Hp HK H. apply HK in H. rewrite app_nil_r in H. apply query_eof in H. apply (pre_eof pre (p_rest s)); [rewrite <- Hp; exact Hts|apply wfp_ne; exact Hw|exact H].
  Qed.
  (** What is expected where the parser is. *)
  Definition state_at (s : pst) (K : list ebnf) (n : Z) (c : list Z) : Prop := at_ s K /\ some K /\ pend K n (fol c).
  Lemma expected_viable s K n c t : wfp s -> state_at s K n c -> (expected parser_atn n c t = true <-> exists w, viable K (t :: w)).
  Proof.
    intros Hw ((pre & Hp & HK) & (w0 & Hw0) & HP). pose proof (proj2 (reach_viable _ _ _ HP w0) Hw0) as HR0. rewrite (expected_can c n t (reach_ready _ _ _ HR0)). unfold can. split.
    - intros [(w & H)|[_ H]]; [exists w; apply (reach_viable _ _ _ HP); exact H|]. destruct (at_prefix pre s K Hw Hp HK). apply (reach_viable _ _ _ HP). exact H.
    - intros (w & H). left. exists w. apply (reach_viable _ _ _ HP). exact H.
  Qed.
  Lemma state_prefix s K n c : wfp s -> state_at s K n c -> exists pre, ts = pre ++ p_rest s /\ prefix pre [] /\ (exists y, expected parser_atn n c y = true) /\ (forall y, expected parser_atn n c y = true -> prefix pre [y]).
  Proof.
    intros Hw HS. destruct (HS) as ((pre & Hp & HK) & (w0 & Hw0) & HP). exists pre. split; [exact Hp|]. split; [exists w0; apply HK; exact Hw0|]. split.
    - destruct w0 as [|y w0]; [destruct (at_prefix pre s K Hw Hp HK Hw0)|]. exists y. apply (expected_viable s K n c y Hw HS). exists w0. exact Hw0.
    - intros y Hy. apply (expected_viable s K n c y Hw HS) in Hy. destruct Hy as (w & Hv). exists w. apply HK. exact Hv.
  Qed.
  Lemma wfp_cons s : wfp s -> p_rest s = lt_ 0 s :: tl (p_rest s).
  Proof. intros H. pose proof (wfp_ne s H). unfold lt_. destruct (p_rest s); [contradiction|reflexivity]. Qed.
  (** The three kinds of calls that list what is expected. *)
  Lemma ok_expect s K n c k m : wfp s -> state_at s K n c -> expected parser_atn n c (la1 (p_rest s)) = false -> In m (expecting (lt_ 0 s) (expected parser_atn n c)) ->
    okcall ts (k, mkCall (Some (lt_ 0 s)) (t_line (lt_ 0 s)) (t_col (lt_ 0 s)) m).
  Proof.
    intros Hw HS HE Hm. destruct (state_prefix s K n c Hw HS) as (pre & Hp & H1 & H2 & H3). exists pre, (lt_ 0 s), (tl (p_rest s)). split; [rewrite <- (wfp_cons s Hw); exact Hp|]. split; [exact H1|]. left. exists (expected parser_atn n c).
    cbn [snd lc_token lc_msg]. split; [reflexivity|]. split; [rewrite (lt0 s Hw); exact HE|]. auto.
  Qed.
  Lemma report_first s t m : clean s -> okcall ts (p_fetched s, mkCall (Some t) (t_line t) (t_col t) m) -> first_ok (report t m s).
  Proof. intros (_ & Hm & Hc) H. unfold report. rewrite Hm. exists [], (p_fetched s, mkCall (Some t) (t_line t) (t_col t) m). cbn [p_calls]. rewrite Hc. split; [reflexivity|exact H]. Qed.
  Lemma clean_fetch k s : clean s -> clean (fetch k s). Proof. exact (fun H => H). Qed.
  Lemma state_fetch k s K n c : state_at s K n c -> state_at (fetch k s) K n c. Proof. exact (fun H => H). Qed.
  (** [reportError] *)
  Lemma before_eof_all l : ~ In EOF (types_of l) -> before_eof l = l.
  Proof. induction l as [|t l IH]; intros H; [reflexivity|]. cbn. cbn in IH. destruct (t_type t) eqn:E; try (f_equal; apply IH; intros Hi; apply H; right; exact Hi). exfalso. apply H. left. exact E. Qed.
  Lemma nth_split_ (l : list token) k d : (k < length l)%nat -> exists a b, l = a ++ nth k l d :: b /\ length a = k.
  Proof. intros H. destruct (nth_split l d H) as (a & b & E & El). exists a, b. auto. Qed.
  Lemma upto_types a t b k : length a = Nat.min k (Nat.pred (length (a ++ t :: b))) -> types_of a = upto k 0 (types_of (a ++ t :: b)).
  Proof.
    intros H. unfold upto, types_of. rewrite map_length, Nat.sub_0_r, <- H, map_app, firstn_app, map_length, Nat.sub_diag, firstn_all2 by (rewrite map_length; lia). symmetry. apply app_nil_r.
  Qed.
  Lemma no_viable_text s k : wfp s -> exists mid tail, p_rest s = mid ++ lt_ k s :: tail /\ types_of mid = upto k 0 (types_of (p_rest s)) /\ before_eof (firstn (S k) (p_rest s)) = before_eof (mid ++ [lt_ k s]).
  Proof.
    intros Hw. pose proof (wfp_ne s Hw) as Hne. unfold lt_. destruct (Nat.lt_ge_cases k (length (p_rest s))) as [Hk|Hk].
    - destruct (nth_split (p_rest s) (last (p_rest s) (mkTok EOF [] 0 0 0 0)) Hk) as (a & b & E & El). exists a, b. split; [exact E|]. split; [rewrite E at 1; apply upto_types; rewrite <- E; lia|]. rewrite E at 1. f_equal.
      rewrite firstn_app, El. replace (S k - k)%nat with 1%nat by lia. rewrite firstn_all2 by lia. reflexivity.
    - rewrite nth_overflow by exact Hk. destruct (exists_last Hne) as (a & t & E). exists a, []. rewrite E. rewrite last_last. split; [reflexivity|]. split; [apply upto_types; rewrite E, app_length in Hk; rewrite app_length; cbn [length] in *; lia|]. rewrite firstn_all2; [reflexivity|]. rewrite E in Hk. lia.
  Qed.
  Definition excused (s : pst) (K : list ebnf) (n : Z) (c : list Z) (e : exn) : Prop :=
    match e with EMismatch => expected parser_atn n c (la1 (p_rest s)) = false | ENoViable k => exists z, viable K (upto k 0 (types_of (p_rest s)) ++ z) end.
  Lemma error_first s K n c e : clean s -> state_at s K n c -> excused s K n c e -> first_ok (report_error parser_atn e n c s).
  Proof.
    intros Hc HS He. pose proof (proj1 Hc) as Hw. destruct e as [k|]; cbn [report_error].
    - destruct (proj1 HS) as (pre & Hp & HK). destruct (proj1 (proj2 HS)) as (w0 & Hw0). assert (H1 : prefix pre []) by (exists w0; apply HK; exact Hw0). destruct (no_viable_text s k Hw) as (mid & tail & E & Et & Eb). cbv zeta. rewrite Eb.
      match goal with |- first_ok (report _ _ ?s1) => assert (Hc1 : clean s1) end. { destruct (p_mode s); [exact Hc|]. destruct (match t_type (lt_ 0 s) with EOF => true | _ => false end); [exact Hc|apply clean_fetch; exact Hc]. }
      apply report_first; [exact Hc1|]. exists pre, (lt_ 0 s), (tl (p_rest s)). split; [rewrite <- (wfp_cons s Hw); exact Hp|]. split; [exact H1|]. right. exists mid, (lt_ k s), tail. split; [rewrite <- (wfp_cons s Hw); exact E|].
      split; [destruct He as (z & Hz); exists z; apply HK; rewrite Et; exact Hz|]. cbn [snd lc_token lc_msg]. split; [reflexivity|]. do 2 f_equal. destruct (t_type (lt_ 0 s)); reflexivity.
    - apply report_first; [exact Hc|]. apply (ok_expect s K n c); [exact Hw|exact HS|exact He|left; reflexivity].
  Qed.
  (** [singleTokenDeletion], [recoverInline], [sync] *)
  Lemma delete_first s K n c : clean s -> state_at s K n c -> expected parser_atn n c (la1 (p_rest s)) = false ->
    if snd (delete parser_atn n c s) then first_ok (fst (delete parser_atn n c s)) else fst (delete parser_atn n c s) = fetch 2 s.
  Proof.
    intros Hc HS HE. unfold delete. destruct (expected parser_atn n c (t_type (lt_ 1 (fetch 2 s)))); cbn [fst snd]; [|reflexivity].
    assert (HF : first_ok (report_unwanted parser_atn n c (fetch 2 s))). { apply report_first; [apply clean_fetch; exact Hc|]. apply (ok_expect (fetch 2 s) K n c); [exact (proj1 Hc)|exact HS|exact HE|right; left; reflexivity]. }
    destruct HF as (l & x & E & H). exists l, x. split; [|exact H]. cbn [report_match p_calls]. rewrite consume_calls. exact E.
  Qed.
  Definition fpost (K : list ebnf) (c : list Z) (r : rres) : Prop :=
    match r with
    | RNormal s => clean s /\ at_ s K \/ wfp s /\ first_ok s
    | RExn s n e => (clean s /\ exists K0, state_at s K0 n c /\ excused s K0 n c e) \/ wfp s /\ first_ok s
    | RFuel => True
    end.
  Lemma fpost_first K c s r : first_ok s -> kpost ts s r -> fpost K c r.
  Proof. intros H. destruct r as [s'|s' n e|]; cbn [kpost fpost]; [| |auto]; intros [Hw [He _]]; right; (split; [exact Hw|eapply first_ext; eassumption]). Qed.
  Lemma inline_first s K K' n c : clean s -> state_at s K n c -> expected parser_atn n c (la1 (p_rest s)) = false -> fpost K' c (recover_inline parser_atn n c s).
  Proof.
    intros Hc HS HE. assert (HE0 : la1 (p_rest s) = EOF -> expected parser_atn n c EOF = false) by (intros E0; rewrite E0 in HE; exact HE).
    pose proof (kpost_inline ts n c s (proj1 Hc) HE0) as HK. unfold recover_inline in *. pose proof (delete_first s K n c Hc HS HE) as HD. destruct (delete parser_atn n c s) as [s1 b]. cbn [fst snd] in HD. clear HE0. destruct b.
    - right. cbn [kpost] in HK. split; [exact (proj1 HK)|]. eapply first_ext; [exact HD|]. exists []. apply consume_calls.
    - subst s1. destruct (expected parser_atn (follow_of parser_atn n) c _).
      + right. split; [exact (proj1 HK)|]. apply report_first; [exact Hc|]. apply (ok_expect (fetch 2 s) K n c); [exact (proj1 Hc)|exact HS|exact HE|right; right; left; reflexivity].
      + left. split; [exact Hc|]. exists K. split; [exact HS|]. exact HE.
  Qed.
  Lemma fpost_sync s K K' n c k : clean s -> state_at s K n c -> (forall s', p_rest s' = p_rest s -> clean s' -> fpost K' c (k s')) -> (forall s', wfp s' -> kpost ts s' (k s')) -> fpost K' c (sync_ parser_atn n c s k).
  Proof.
    intros Hc HS Hk HK. unfold sync_. rewrite (proj1 (proj2 Hc)). destruct (next_has parser_atn n (la1 (p_rest s)) || next_eps parser_atn n) eqn:E; [apply Hk; [reflexivity|exact Hc]|].
    assert (HE : expected parser_atn n c (la1 (p_rest s)) = false). { rewrite expected_unfold. apply orb_false_elim in E. destruct E as [-> ->]. reflexivity. } clear E.
    destruct (existsb _ [3; 4; 5; 10]).
    - pose proof (delete_first s K n c Hc HS HE) as HD. assert (HE0 : la1 (p_rest s) = EOF -> expected parser_atn n c EOF = false) by (intros E0; rewrite E0 in HE; exact HE).
      pose proof (delete_step n c s (proj1 Hc) HE0) as HW. clear HE0. destruct (delete parser_atn n c s) as [s1 b]. cbn [fst snd] in HD. destruct b.
      + eapply fpost_first; [exact HD|]. apply HK. exact (proj1 HW).
      + subst s1. left. split; [exact Hc|]. exists K. split; [exact HS|]. exact HE.
    - destruct (existsb _ [9; 11]); [|apply Hk; [reflexivity|exact Hc]].
      assert (HF : first_ok (report_unwanted parser_atn n c s)). { apply report_first; [exact Hc|]. apply (ok_expect s K n c); [exact (proj1 Hc)|exact HS|exact HE|right; left; reflexivity]. }
      match goal with |- fpost _ _ (k ?s1) => apply (fpost_first K' c s1) end; [eapply first_ext; [exact HF|unfold consume_until; exact (proj1 (keeps_until ts _ _ _))]|]. apply HK. apply until_step. unfold wfp, report_unwanted. rewrite report_rest. exact (proj1 Hc).
  Qed.
  Lemma fpost_predict s K K' n d c k : nth_error (a_decisions parser_atn) d = Some n -> clean s -> state_at s K n c -> (forall i s', adaptive parser_atn d c (types_of (p_rest s)) = Some i -> p_rest s' = p_rest s -> clean s' -> fpost K' c (k i s')) -> fpost K' c (predict_ parser_atn n d c s k).
  Proof.
    intros Hd Hc HS Hk. unfold predict_. cbv zeta. unfold adaptive in Hk. destruct (adaptive_predict _ _ _ _) as [i|j] eqn:EP.
    - apply Hk; [reflexivity|reflexivity|exact Hc].
    - left. split; [exact Hc|]. exists K. split; [exact HS|]. cbn [excused]. destruct HS as ((pre & Hp & HK) & (w0 & Hw0) & HP). pose proof (reach_viable _ _ _ HP) as HV.
      assert (HA : forall t w, In t (alternatives parser_atn d) -> reach parser_atn t (fol c) w -> viable K w). { intros t w Ht Hr. apply HV. eapply r_silent; [exact (alternative_edge d t n Hd Ht)|exact I|exact Hr]. }
      apply predict_path in EP; [|exact (reach_ready _ _ _ (proj2 (HV w0) Hw0))| |exact (proj1 Hc)].
      + destruct EP as [EP|(t & z & Ht & Hz)]; [exists w0; cbn [fetch p_rest]; rewrite EP; exact Hw0|]. exists z. exact (HA t _ Ht Hz).
      + intros t w Ht Hr. apply HA in Hr; [|exact Ht]. apply HK in Hr. apply query_eof in Hr. apply in_app_or in Hr. destruct Hr as [Hr|Hr]; [|exact Hr]. destruct (pre_eof pre (p_rest s)) with (2 := wfp_ne s (proj1 Hc)); [rewrite <- Hp; exact Hts|exact Hr].
  Qed.
  Lemma fpost_then K1 K c r k : fpost K1 c r -> (forall s, clean s -> at_ s K1 -> fpost K c (k s)) -> (forall s, wfp s -> kpost ts s (k s)) -> fpost K c (rthen r k).
  Proof.
    intros H Hk HK. destruct r as [s|s n e|]; cbn [rthen]; [|exact H|exact I]. destruct H as [[H1 H2]|[H1 H2]]; [apply Hk; assumption|]. eapply fpost_first; [exact H2|apply HK; exact H1].
  Qed.
  Lemma fpost_caught K c' c r : fpost K c' r -> fpost K c (caught parser_atn c' r).
  Proof.
    intros H. destruct r as [s|s n e|]; cbn [caught]; [exact H| |exact I]. right.
    assert (HF : wfp s /\ first_ok (report_error parser_atn e n c' s)).
    { destruct H as [(Hc & K0 & HS & He)|[Hw H]]; [split; [exact (proj1 Hc)|exact (error_first s K0 n c' e Hc HS He)]|]. split; [exact Hw|]. eapply first_ext; [exact H|exact (proj1 (keeps_error ts e n c' s))]. }
    destruct HF as [Hw HF]. split; [|eapply first_ext; [exact HF|exact (proj1 (keeps_recover ts n c' _))]].
    exact (proj1 (kpost_caught ts c' s (RExn s n e) (conj Hw (keeps_refl ts s)))).
  Qed.
End First.

(** ** The statements *)
Fixpoint fine (x : stm) : bool :=
  prod (tr x) &&
  match x with
  | Match _ _ | Call _ _ => true
  | MatchSet _ x l => forallb (fun t => Bool.eqb (la_test x t) (tt_in t l)) all_ttypes
  | Seq a b => fine a && fine b
  | Switch _ l => forallb (fun q => fine (snd q)) l
  | IfLa _ _ b | PredOpt _ _ b | DoLa _ b _ _ | DoPred _ b _ _ | LoopLa b _ _ | LoopPred b _ _ => fine b
  | Pred _ _ l => forallb fine l
  end.
Lemma fine_methods r : fine (method r) = true.
Proof. destruct r; vm_compute; reflexivity. Qed.
Opaque fine.
Lemma fine_inv x : fine x = true -> prod (tr x) = true /\
  match x with
  | Match _ _ | Call _ _ => True
  | MatchSet _ x l => forall t, la_test x t = tt_in t l
  | Seq a b => fine a = true /\ fine b = true
  | Switch _ l => forallb (fun q => fine (snd q)) l = true
  | IfLa _ _ b | PredOpt _ _ b | DoLa _ b _ _ | DoPred _ b _ _ | LoopLa b _ _ | LoopPred b _ _ => fine b = true
  | Pred _ _ l => forallb fine l = true
  end.
Proof.
  Transparent fine. destruct x; cbn [fine]; intros H; apply andb_prop in H; destruct H as [H1 H2]; (split; [exact H1|]); try exact H2; try exact I.
  - intros t. rewrite forallb_forall in H2. apply Bool.eqb_prop. apply H2. apply all_ttypes_all.
  - apply andb_prop. exact H2.
  Opaque fine.
Qed.
Lemma viable_alts e l K z : In e l -> viable (e :: K) z -> viable (GenParser.alts l :: K) z.
Proof.
  intros Hin H. apply viable_cons_inv in H. destruct H as (w1 & w2 & -> & H1 & H2). apply viable_one in H1. destruct H1 as (x & Hd & <-). apply viable_app; [|exact H2]. eapply alts_derives; eassumption.
Qed.
Section Main.
  Variable ts : list token.
  Hypothesis Hts : to_eof (types_of ts).
  Notation at_ := (at_ ts).
  Notation state_at := (state_at ts).
  Notation fpost := (fpost ts).
  Lemma la_cases s K n c (p : ttype -> bool) : clean s -> state_at s K n c -> (forall t w, viable K (t :: w) -> p t = true) -> p (la1 (p_rest s)) = false -> expected parser_atn n c (la1 (p_rest s)) = false.
  Proof.
    intros Hc HS HK Hp. destruct (expected parser_atn n c (la1 (p_rest s))) eqn:E; [|reflexivity]. apply (expected_viable ts Hts s K n c _ (proj1 Hc) HS) in E. destruct E as (w & Hw). rewrite (HK _ _ Hw) in Hp. discriminate.
  Qed.
  Lemma match_clean s : clean s -> la1 (p_rest s) <> EOF -> clean (consume (report_match s)).
  Proof.
    intros Hc E. split; [exact (proj1 (match_step s (proj1 Hc) E))|]. split; [rewrite consume_mode; reflexivity|rewrite consume_calls; exact (proj2 (proj2 Hc))].
  Qed.
  Lemma match_at s l K : clean s -> la1 (p_rest s) <> EOF -> In (la1 (p_rest s)) l -> at_ s (Tk l :: K) -> at_ (consume (report_match s)) K.
  Proof.
    intros Hc E Hl (pre & Hp & HK). destruct (consume_index (report_match s) (proj1 Hc) E) as [_ (k & Hk)]. cbn [report_match p_rest] in Hk. exists (pre ++ [k]). split; [rewrite Hp, Hk, <- app_assoc; reflexivity|].
    intros z Hz. unfold types_of. rewrite map_app, <- app_assoc. apply HK. apply viable_tk; [|exact Hz]. rewrite Hk in Hl. exact Hl.
  Qed.
  Lemma nil_not s K : clean s -> at_ s K -> ~ viable K [].
  Proof. intros Hc (pre & Hp & HK). exact (at_prefix ts Hts pre s K (proj1 Hc) Hp HK). Qed.
  Theorem rrun_first f : forall x c s K q v, good x = true -> fine x = true -> clean s -> at_ s (tr x :: K) -> placed x q v -> pend K v (fol c) -> some K -> fpost K c (rr f x c s).
  Proof.
    induction f as [|f IH]; intros x c s K q v Hg Hf Hc Ha Hpl Hpe HK; [exact I|]. pose proof (rrun_keeps ts f) as RK. destruct (good_inv x Hg) as [_ Hin]. destruct (fine_inv x Hf) as [Hpr Hfi].
    assert (HS : state_at s (tr x :: K) q c) by (split; [exact Ha|split; [apply prod_cons; assumption|eapply pend_stm; eassumption]]).
    destruct x as [m t|m x l|m r|a b|m l|m x b|m d l|m d b|m b m' x|m b m' d|b m x|b m d]; cbn [rrun tr] in *.
    - inversion Hpl; subst. apply andb_prop in Hin. destruct Hin as [Hin _]. apply andb_prop in Hin. destruct Hin as [Ht _]. apply negb_true_iff in Ht.
      destruct (ttype_eqb (la1 (p_rest s)) t) eqn:E.
      + unfold ttype_eqb in E, Ht. destruct (ttype_eq_dec (la1 (p_rest s)) t) as [<-|]; [|discriminate]. destruct (ttype_eq_dec (la1 (p_rest s)) EOF) as [|Hne]; [discriminate|]. left. split; [apply match_clean; assumption|]. eapply match_at; [exact Hc|exact Hne| |exact Ha]. left. reflexivity.
      + apply (inline_first ts Hts s (Tk [t] :: K)); [exact Hc|exact HS|]. apply (la_cases s (Tk [t] :: K) _ c (fun x => ttype_eqb x t) Hc HS); [|exact E]. intros y w Hy. apply viable_step_tk in Hy. destruct Hy as [[<-|[]] _]. unfold ttype_eqb. destruct (ttype_eq_dec t t); [reflexivity|contradiction].
    - inversion Hpl; subst. apply andb_prop in Hin. destruct Hin as [Hin _]. apply andb_prop in Hin. destruct Hin as [Ht _]. apply negb_true_iff in Ht.
      destruct (la_test x (la1 (p_rest s))) eqn:E.
      + assert (Hne : la1 (p_rest s) <> EOF) by (intros E0; congruence). left. split; [apply match_clean; assumption|]. eapply match_at; [exact Hc|exact Hne| |exact Ha]. apply tt_in_spec. rewrite <- Hfi. exact E.
      + apply (inline_first ts Hts s (Tk l :: K)); [exact Hc|exact HS|]. apply (la_cases s (Tk l :: K) _ c (la_test x) Hc HS); [|exact E]. intros y w Hy. apply viable_step_tk in Hy. rewrite Hfi. apply tt_in_spec. tauto.
    - inversion Hpl as [| |? ? pr v' Ho| | | | | | | | |]; subst. apply fpost_caught; [exact Hts|]. destruct (method_placed r) as (w & Hw & Hst). eapply IH; [apply good_method; exact Hin|apply fine_methods|exact Hc| |exact Hw| |exact HK].
      + rewrite method_body. eapply at_weak; [reflexivity| |exact Ha]. intros z Hz. apply viable_nt. exact Hz.
      + cbn [map]. rewrite (follow_call _ _ _ _ Ho). apply pend_ret; [exact Hst|]. apply pend_nm. exact Hpe.
    - destruct Hin as [Ga Gb]. destruct Hfi as [Fa Fb]. inversion Hpl as [| | |? ? ? t ? P1 P2| | | | | | | |]; subst. destruct (fine_inv b Fb) as [Pb _]. eapply fpost_then; [eapply (IH a c s (tr b :: K)); [exact Ga|exact Fa|exact Hc| |exact P1|eapply pend_stm; eassumption|apply prod_cons; assumption]| |].
      + eapply at_weak; [reflexivity| |exact Ha]. intros z Hz. apply viable_sq. exact Hz.
      + intros s' Hc' Ha'. eapply IH; eassumption.
      + intros s' H'. apply RK; assumption.
    - destruct Hin as [_ Gl]. inversion Hpl as [| | | |? ? ? _ HF| | | | | | |]; subst. eapply fpost_sync; [exact Hts|exact Hc|exact HS| |].
      + intros s' Er Hc'. destruct (find _ l) as [p|] eqn:Ef.
        * apply find_some in Ef. destruct Ef as [Hp _]. destruct (In_nth_error _ _ Hp) as (i & Hi). destruct (F2_nth _ _ _ HF _ _ Hi) as (e & _ & _ & Pc).
          eapply IH; [exact (proj1 (forallb_forall _ _) Gl _ Hp)|exact (proj1 (forallb_forall _ _) Hfi _ Hp)|exact Hc'| |exact Pc|exact Hpe|exact HK]. eapply at_weak; [exact Er| |exact Ha]. intros z Hz. eapply viable_alts; [|exact Hz]. apply (in_map (fun c => tr (snd c))). exact Hp.
        * left. split; [exact Hc'|]. eexists. split; [split; [eapply at_weak; [exact Er|intros z Hz; exact Hz|exact Ha]|exact (proj2 HS)]|]. exact (proj1 (proj2 HS)).
      + intros s' H'. destruct (find _ l) as [p|] eqn:Ef; [|split; [exact H'|apply keeps_refl]]. apply find_some in Ef. apply RK; [exact (proj1 (forallb_forall _ _) Gl _ (proj1 Ef))|exact H'].
    - destruct Hin as [_ Gb]. inversion Hpl as [| | | | |? ? ? a b' Ho Ps| | | | | |]; subst. eapply fpost_sync; [exact Hts|exact Hc|exact HS| |].
      + intros s' Er Hc'. destruct (la_test x _).
        * eapply IH; [exact Gb|exact Hfi|exact Hc'| |exact Ps|exact Hpe|exact HK]. eapply at_weak; [exact Er| |exact Ha]. intros z Hz. apply viable_op. left. exact Hz.
        * left. split; [exact Hc'|]. eapply at_weak; [exact Er| |exact Ha]. intros z Hz. apply viable_op. right. exact Hz.
      + intros s' H'. destruct (la_test x _); [apply RK; assumption|apply kpost_normal; exact H'].
    - destruct Hin as [_ Gl]. inversion Hpl as [| | | | | |? ? ? ? _ Hd HF| | | | |]; subst. eapply fpost_sync; [exact Hts|exact Hc|exact HS| |].
      + intros s' Er Hc'. eapply (fpost_predict ts Hts); [exact Hd|exact Hc'|split; [eapply at_weak; [exact Er|intros z Hz; exact Hz|exact Ha]|exact (proj2 HS)]|]. intros i s2 Hi Er2 Hc2. apply net_range in Hi. rewrite (alternatives_at _ _ Hd), map_length, <- (F2_length _ _ _ HF) in Hi.
        destruct i as [|i]; [lia|]. destruct (nth_error l i) as [b|] eqn:Eb; [|apply nth_error_None in Eb; lia]. destruct (F2_nth _ _ _ HF _ _ Eb) as (e & _ & _ & Ps). pose proof (nth_error_In _ _ Eb) as Hb.
        eapply IH; [exact (proj1 (forallb_forall _ _) Gl _ Hb)|exact (proj1 (forallb_forall _ _) Hfi _ Hb)|exact Hc2| |exact Ps|exact Hpe|exact HK]. eapply (at_weak ts s); [congruence| |exact Ha]. intros z Hz. eapply viable_alts; [|exact Hz]. apply in_map. exact Hb.
      + intros s' H'. apply kpost_predict; [exact H'|]. intros i s2 H2. destruct i as [|i]; [apply kpost_normal; exact H2|]. destruct (nth_error l i) as [b|] eqn:Eb; [|apply kpost_normal; exact H2].
        apply RK; [exact (proj1 (forallb_forall _ _) Gl _ (nth_error_In _ _ Eb))|exact H2].
    - destruct Hin as [_ Gb]. inversion Hpl as [| | | | | | |? ? ? a b' Hd Ho Ps| | | |]; subst. eapply fpost_sync; [exact Hts|exact Hc|exact HS| |].
      + intros s' Er Hc'. eapply (fpost_predict ts Hts); [exact Hd|exact Hc'|split; [eapply at_weak; [exact Er|intros z Hz; exact Hz|exact Ha]|exact (proj2 HS)]|]. intros i s2 _ Er2 Hc2. destruct (Nat.eqb i 1).
        * eapply IH; [exact Gb|exact Hfi|exact Hc2| |exact Ps|exact Hpe|exact HK]. eapply (at_weak ts s); [congruence| |exact Ha]. intros z Hz. apply viable_op. left. exact Hz.
        * left. split; [exact Hc2|]. eapply (at_weak ts s); [congruence| |exact Ha]. intros z Hz. apply viable_op. right. exact Hz.
      + intros s' H'. apply kpost_predict; [exact H'|]. intros i s2 H2. destruct (Nat.eqb i 1); [apply RK; assumption|apply kpost_normal; exact H2].
    - destruct Hin as [_ Gb]. inversion Hpl as [| | | | | | | | | |? ? ? ? ? Ps|]; subst. eapply fpost_sync; [exact Hts|exact Hc|split; [exact Ha|split; [exact (proj1 (proj2 HS))|apply pend_nm; exact (proj2 (proj2 HS))]]| |].
      + intros s' Er Hc'. eapply IH; [exact Gb|exact Hf|exact Hc'| |exact Ps|exact Hpe|exact HK]. eapply at_weak; [exact Er|intros z Hz; exact Hz|exact Ha].
      + intros s' H'. apply RK; assumption.
    - destruct Hin as [_ Gb]. inversion Hpl as [| | | | | | | | | | |? ? ? ? ? Ps]; subst. eapply fpost_sync; [exact Hts|exact Hc|split; [exact Ha|split; [exact (proj1 (proj2 HS))|apply pend_nm; exact (proj2 (proj2 HS))]]| |].
      + intros s' Er Hc'. eapply IH; [exact Gb|exact Hf|exact Hc'| |exact Ps|exact Hpe|exact HK]. eapply at_weak; [exact Er|intros z Hz; exact Hz|exact Ha].
      + intros s' H'. apply RK; assumption.
    - destruct Hin as [_ Gb]. inversion Hpl as [| | | | | | | |? ? ? ? a b' Ps Ho Ea| | |]; subst. assert (HSt : some (St (tr b) :: K)) by (apply prod_cons; [reflexivity|exact HK]).
      assert (HPl : pend (St (tr b) :: K) m (fol c)) by (eapply pend_loop; [exact Ps|exact Ho|reflexivity|exact Hpe]).
      eapply fpost_then; [eapply (IH b c s (St (tr b) :: K)); [exact Gb|exact Hfi|exact Hc| |exact Ps|exact HPl|exact HSt]| |].
      + eapply at_weak; [reflexivity| |exact Ha]. intros z Hz. apply viable_pl. exact Hz.
      + intros s1 Hc1 Ha1. eapply fpost_sync; [exact Hts|exact Hc1|split; [exact Ha1|split; [exact HSt|exact HPl]]| |].
        * intros s' Er Hc'. destruct (la_test x _).
          -- eapply IH; [exact Hg|exact Hf|exact Hc'| |exact Hpl|exact Hpe|exact HK]. eapply at_weak; [exact Er| |exact Ha1]. intros z Hz. cbn [tr] in Hz. apply viable_pl in Hz. apply viable_st. left. exact Hz.
          -- left. split; [exact Hc'|]. eapply at_weak; [exact Er| |exact Ha1]. intros z Hz. apply viable_st. right. exact Hz.
        * intros s2 H2. destruct (la_test x _); [apply RK; assumption|apply kpost_normal; exact H2].
      + intros s' H'. apply kpost_sync; [exact H'|]. intros s2 H2. destruct (la_test x _); [apply RK; assumption|apply kpost_normal; exact H2].
    - destruct Hin as [_ Gb]. inversion Hpl as [| | | | | | | | |? ? ? ? a b' Hd Ps Ho Ea| |]; subst. assert (HSt : some (St (tr b) :: K)) by (apply prod_cons; [reflexivity|exact HK]).
      assert (HPl : pend (St (tr b) :: K) m (fol c)) by (eapply pend_loop; [exact Ps|exact Ho|reflexivity|exact Hpe]).
      eapply fpost_then; [eapply (IH b c s (St (tr b) :: K)); [exact Gb|exact Hfi|exact Hc| |exact Ps|exact HPl|exact HSt]| |].
      + eapply at_weak; [reflexivity| |exact Ha]. intros z Hz. apply viable_pl. exact Hz.
      + intros s1 Hc1 Ha1. eapply fpost_sync; [exact Hts|exact Hc1|split; [exact Ha1|split; [exact HSt|exact HPl]]| |].
        * intros s' Er Hc'. eapply (fpost_predict ts Hts); [exact Hd|exact Hc'|split; [eapply at_weak; [exact Er|intros z Hz; exact Hz|exact Ha1]|split; [exact HSt|exact HPl]]|]. intros i s2 _ Er2 Hc2. destruct (Nat.eqb i 1).
          -- eapply IH; [exact Hg|exact Hf|exact Hc2| |exact Hpl|exact Hpe|exact HK]. eapply (at_weak ts s1); [congruence| |exact Ha1]. intros z Hz. cbn [tr] in Hz. apply viable_pl in Hz. apply viable_st. left. exact Hz.
          -- left. split; [exact Hc2|]. eapply (at_weak ts s1); [congruence| |exact Ha1]. intros z Hz. apply viable_st. right. exact Hz.
        * intros s2 H2. apply kpost_predict; [exact H2|]. intros i s3 H3. destruct (Nat.eqb i 1); [apply RK; assumption|apply kpost_normal; exact H3].
      + intros s' H'. apply kpost_sync; [exact H'|]. intros s2 H2. apply kpost_predict; [exact H2|]. intros i s3 H3. destruct (Nat.eqb i 1); [apply RK; assumption|apply kpost_normal; exact H3].
  Qed.
End Main.
Lemma fine_query : fine (Call 46 main_query) = true /\ fine within_stm = true /\ prod (tr within_stm) = true.
Proof. Transparent fine. repeat split; vm_compute; reflexivity. Opaque fine. Qed.
Lemma placed_seq a b q v : placed (Seq a b) q v -> exists t, placed a q t /\ placed b t v.
Proof. intros H. inversion H; subst. eauto. Qed.
Lemma placed_match n t q v : placed (Match n t) q v -> q = n.
Proof. intros H. inversion H; subst. reflexivity. Qed.
Theorem query_first ts s : to_eof (types_of ts) -> recovering parser_atn ts = RNormal s -> p_calls s = [] \/ first_ok ts s.
Proof.
  intros Hts. unfold recovering. remember (2048 * S (length ts))%nat as F. destruct F as [|[|f]]; [lia|lia|]. clear HeqF.
  change (rr (S (S f)) (method query) [] (rstart ts)) with (rthen (rr (S f) (Call 46 main_query) [] (rstart ts)) (fun s => rthen (rr f within_stm [] s) (fun s => rr f (Match 51 EOF) [] s))).
  destruct (method_placed query) as (v & Hv & Hst). change (method query) with (Seq (Call 46 main_query) (Seq within_stm (Match 51 EOF))) in Hv.
  apply placed_seq in Hv. destruct Hv as (t1 & P1 & Pr). apply placed_seq in Pr. destruct Pr as (t2 & P2 & P3). pose proof (placed_match _ _ _ _ P3) as ->.
  pose proof (pend_stm _ _ _ [] [] P3 (pend_end v Hst)) as PE. pose proof (pend_stm _ _ _ _ [] P2 PE) as PW.
  assert (S3 : some [Tk [EOF]]) by (exists [EOF]; apply viable_tk; [left; reflexivity|apply viable_nil]).
  assert (S2 : some [tr within_stm; Tk [EOF]]) by (apply prod_cons; [exact (proj2 (proj2 fine_query))|exact S3]).
  assert (Hw : wfp (rstart ts)) by exact Hts.
  assert (HQ : fpost ts [] [] (rthen (rr (S f) (Call 46 main_query) [] (rstart ts)) (fun s => rthen (rr f within_stm [] s) (fun s => rr f (Match 51 EOF) [] s))) \/
    exists s', rthen (rr (S f) (Call 46 main_query) [] (rstart ts)) (fun s => rthen (rr f within_stm [] s) (fun s => rr f (Match 51 EOF) [] s)) = RNormal s' /\ p_calls s' = []).
  { pose proof (rrun_first ts Hts (S f) (Call 46 main_query) [] (rstart ts) [tr within_stm; Tk [EOF]] (pnm (start_of P (rule_num query))) t1 (proj1 good_query) (proj1 fine_query)) as H1.
    specialize (H1 (conj Hw (conj eq_refl eq_refl))).
    assert (HL : forall s, wfp s -> first_ok ts s -> fpost ts [] [] (rr f (Match 51 EOF) [] s)).
    { intros s1 Hw1 HF. pose proof (epost_last s1 f Hw1) as HE. destruct (rr f (Match 51 EOF) [] s1) as [s2|s2 m e|]; cbn [epost fpost] in *; [| |exact I]; right; (split; [exact (proj1 HE)|eapply first_ext; [exact HF|exact (proj2 HE)]]). }
    assert (A1 : at_ ts (rstart ts) [tr (Call 46 main_query); tr within_stm; Tk [EOF]]).
    { exists []. split; [reflexivity|]. intros z Hz. cbn [types_of map app]. apply viable_nt. cbn [body]. apply viable_sq. cbn [tr] in Hz. apply viable_cons_inv in Hz. destruct Hz as (w1 & w2 & -> & Z1 & Z2). apply viable_cons; [exact Z1|]. apply viable_sq. exact Z2. }
    specialize (H1 A1 P1 PW S2).
    destruct (rr (S f) (Call 46 main_query) [] (rstart ts)) as [s1|s1 m e|]; cbn [rthen]; [|left; exact H1|left; exact I]. destruct H1 as [[C1 A2]|[W1 F1]].
    - pose proof (rrun_first ts Hts f within_stm [] s1 [Tk [EOF]] t1 51 (proj2 good_query) (proj1 (proj2 fine_query)) C1 A2 P2 PE S3) as H2.
      destruct (rr f within_stm [] s1) as [s2|s2 m e|]; cbn [rthen]; [|left; exact H2|left; exact I]. destruct H2 as [[C2 A3]|[W2 F2]]; [|left; apply HL; assumption].
      destruct f as [|f]; [left; exact I|]. destruct (eof_or s2) as [E|E].
      + right. rewrite (last_run s2 f E (proj1 C2)). eexists. split; [reflexivity|]. exact (proj2 (proj2 C2)).
      + left. rewrite (last_inline s2 f E). assert (HS : state_at ts s2 [Tk [EOF]] 51 []) by (split; [exact A3|split; [exact S3|exact PE]]).
        apply (inline_first ts Hts s2 [Tk [EOF]]); [exact C2|exact HS|]. apply (la_cases ts Hts s2 [Tk [EOF]] 51 [] (fun x => ttype_eqb x EOF) C2 HS).
        * intros y w Hy. apply viable_step_tk in Hy. destruct Hy as [[<-|[]] _]. reflexivity.
        * unfold ttype_eqb. destruct (ttype_eq_dec _ EOF); [contradiction|reflexivity].
    - left. pose proof (rrun_keeps ts f within_stm [] s1 (proj2 good_query) W1) as K2. destruct (rr f within_stm [] s1) as [s2|s2 m e|]; cbn [rthen kpost] in *; [| |exact I].
      + destruct K2 as [W2 [E2 _]]. apply HL; [exact W2|]. eapply first_ext; eassumption.
      + right. split; [exact (proj1 K2)|]. eapply first_ext; [exact F1|exact (proj1 (proj2 K2))]. }
  intros HR. destruct HQ as [HQ|(s' & E & Hc)].
  - apply (fpost_caught ts Hts [] [] []) in HQ. rewrite HR in HQ. destruct HQ as [[(_ & _ & Hc) _]|[_ HF]]; [left; exact Hc|right; exact HF].
  - rewrite E in HR. cbn [caught] in HR. injection HR as <-. left. exact Hc.
Qed.
