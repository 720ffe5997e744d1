(** C60: the parse tree API (what one does with the result of [antlr_parse]). *)
From Coq Require Import String.
From Verif Require Import Base Regex LexRules Lexer Grammar Antlr Parser LexSpec TokenSpec GramSpec GramFacts SimFacts LexThms TokenFacts PropsLex PropsErrors ContextData Contexts.

From Verif Require Atn GenParser.

(** ** Specification *)
(** [subtree t x]: [t] occurs in [x] (or is [x]). *)
Inductive subtree (t : ptree) : ptree -> Prop :=
| st_self : subtree t t
| st_child r ch c : In c ch -> subtree t c -> subtree t (Node r ch).
(** A child is of a kind. *)
Definition is_a (t : ptree) (k : kind) : Prop :=
  match t with Node r _ => k = KRule r | Leaf tk => k = KTok (t_type tk) end.
(** [l] are the elements of [ch] with property [P], in order. *)
Inductive those {A} (P : A -> Prop) : list A -> list A -> Prop :=
| those_nil : those P [] []
| those_in c ch l : P c -> those P ch l -> those P (c :: ch) (c :: l)
| those_out c ch l : ~ P c -> those P ch l -> those P (c :: ch) l.
(** Read off FCSParser.g4: what every context of a rule contains. *)
Definition always (r : rule) : list kind :=
  match r with
  | query => [KRule main_query; KTok EOF]
  | query_disjunction => [KTok OR]
  | query_group => [KTok L_PAREN; KTok R_PAREN]
  | query_implicit => [KRule regexp]
  | query_segment => [KTok L_SQUARE_BRACKET; KTok R_SQUARE_BRACKET]
  | within_part => [KRule within_part_simple]
  | within_part_simple => [KTok SIMPLE_WITHIN_SCOPE]
  | expression_or => [KTok OR]
  | expression_and => [KTok AND]
  | expression_group => [KTok L_PAREN; KTok R_PAREN]
  | expression_not => [KTok NOT]
  | expression_basic => [KRule attribute; KRule regexp]
  | attribute => [KRule identifier]
  | regexp => [KRule regexp_pattern]
  | regexp_pattern => [KTok REGEXP]
  | regexp_flag => [KTok REGEXP_FLAGS]
  | main_query | query_sequence | query_simple | quantifier | expression | qualifier | identifier => []
  end.
(** All contexts of a rule, outer before inner, left to right; and inner before outer. *)
Fixpoint pre (r : rule) (t : ptree) : list ptree :=
  match t with Leaf _ => [] | Node r' ch => (if rule_eqb r' r then [t] else []) ++ flat_map (pre r) ch end.
Fixpoint post (r : rule) (t : ptree) : list ptree :=
  match t with Leaf _ => [] | Node r' ch => flat_map (post r) ch ++ (if rule_eqb r' r then [t] else []) end.
Definition terminals (l : list event) : list token := flat_map (fun e => match e with Terminal k => [k] | _ => [] end) l.
Definition calls_of (m : pystr) (l : list event) : list ptree :=
  flat_map (fun e => match e with Call m' t => if list_eq_dec N.eq_dec m' m then [t] else [] | _ => [] end) l.
(** A listener that keeps a stack of the rules it is in; at each terminal it notes the stack. An exit that does not
    belong to the innermost open rule is an error. *)
Fixpoint with_stack (l : list event) (st : list rule) : option (list (token * list rule) * list rule) :=
  match l with
  | [] => Some ([], st)
  | Terminal k :: l' => match with_stack l' st with Some (o, s) => Some ((k, st) :: o, s) | None => None end
  | EnterEvery (Node r _) :: l' => with_stack l' (r :: st)
  | ExitEvery (Node r _) :: l' => match st with r' :: st' => if rule_eqb r r' then with_stack l' st' else None | [] => None end
  | Call _ _ :: l' => with_stack l' st
  | _ => None
  end.
(** Each leaf with the rules of the contexts around it, innermost first. *)
Fixpoint paths (st : list rule) (t : ptree) : list (token * list rule) :=
  match t with Leaf k => [(k, st)] | Node r ch => flat_map (paths (r :: st)) ch end.
(** What is left of an event if the context argument is not looked at. *)
Inductive seen := SCall (m : pystr) | SEnter | SExit | STerminal (t : token).
Definition look (e : event) : seen :=
  match e with Call m _ => SCall m | EnterEvery _ => SEnter | ExitEvery _ => SExit | Terminal k => STerminal k end.
(** Python's [s[0].upper() + s[1:]] on ASCII. *)
Definition capital (s : pystr) : pystr := match s with c :: s' => (if ((97 <=? c) && (c <=? 122))%N then c - 32 else c)%N :: s' | [] => [] end.

(** ** Facts *)
Lemma rule_eqb_iff a b : rule_eqb a b = true <-> a = b.
Proof. unfold rule_eqb. destruct (rule_eq_dec a b); split; congruence. Qed.
Lemma ttype_eqb_iff a b : ttype_eqb a b = true <-> a = b.
Proof. unfold ttype_eqb. destruct (ttype_eq_dec a b); split; congruence. Qed.
Lemma of_kind_is_a k t : of_kind k t = true <-> is_a t k.
Proof.
  destruct k as [r|ty], t as [tk|r' ch]; cbn; try (split; congruence).
  - rewrite rule_eqb_iff. split; congruence.
  - rewrite ttype_eqb_iff. split; congruence.
Qed.
Lemma those_filter {A} (P : A -> Prop) (f : A -> bool) l : (forall a, f a = true <-> P a) -> those P l (filter f l).
Proof.
  intros H. induction l as [|a l IH]; [constructor|]. cbn. destruct (f a) eqn:Ha.
  - constructor; [apply H; exact Ha|exact IH].
  - constructor; [intros Hp; apply H in Hp; congruence|exact IH].
Qed.
Lemma get_at_nth k ch : forall i, get_at k i ch = nth_error (get_all k ch) i.
Proof.
  unfold get_all. induction ch as [|c ch IH]; intros i; cbn; [destruct i; reflexivity|]. destruct (of_kind k c); [|apply IH].
  destruct i as [|i]; [reflexivity|]. cbn. apply IH.
Qed.

Fixpoint maxo (k : kind) (e : ebnf) : nat :=
  match e with
  | Tk l => match k with KTok t => if tt_in t l then 1 else 0 | KRule _ => 0 end
  | NT r => match k with KRule r' => if rule_eqb r r' then 1 else 0 | KTok _ => 0 end
  | Sq a b => maxo k a + maxo k b
  | Al a b => Nat.max (maxo k a) (maxo k b)
  | Op a => maxo k a
  | Pl a | St a => match maxo k a with O => 0 | _ => 2 end
  end.
Fixpoint mino (k : kind) (e : ebnf) : nat :=
  match e with
  | Tk l => match k with KTok t => if forallb (ttype_eqb t) l then 1 else 0 | KRule _ => 0 end
  | NT r => match k with KRule r' => if rule_eqb r r' then 1 else 0 | KTok _ => 0 end
  | Sq a b => mino k a + mino k b
  | Al a b => Nat.min (mino k a) (mino k b)
  | Op _ | St _ => 0
  | Pl a => mino k a
  end.
Definition count (k : kind) (fs : list ptree) : nat := List.length (filter (of_kind k) fs).
Lemma count_app k a b : count k (a ++ b) = (count k a + count k b)%nat.
Proof. unfold count. rewrite filter_app, app_length. reflexivity. Qed.
Lemma tt_in_iff t l : tt_in t l = true <-> In t l.
Proof. unfold tt_in. rewrite existsb_exists. split; [intros (x & H & E); apply ttype_eqb_iff in E; subst; exact H|intros H; exists t; split; [exact H|apply ttype_eqb_iff; reflexivity]]. Qed.
Lemma maxo_ok k e fs : derives e fs -> (maxo k e <= 1 -> count k fs <= maxo k e)%nat.
Proof.
  induction 1 as [l t Ht|r ch _ _|a b x y _ IHa _ IHb|a b x _ IH|a b x _ IH|e|e x _ IH|e x y _ IHx _ IHy|e|e x y _ IHx _ IHy]; intros Hm; cbn [maxo] in *; rewrite ?count_app.
  - unfold count. cbn. destruct k as [r|ty]; cbn; [lia|]. destruct (tt_in ty l) eqn:Hin; [destruct (ttype_eqb (t_type t) ty); cbn; lia|].
    destruct (ttype_eqb (t_type t) ty) eqn:He; [|cbn; lia]. apply ttype_eqb_iff in He. subst ty. apply tt_in_iff in Ht. congruence.
  - unfold count. cbn. destruct k as [r'|ty]; cbn; [|lia]. destruct (rule_eqb r r'); cbn; lia.
  - assert (count k x <= maxo k a)%nat by (apply IHa; lia). assert (count k y <= maxo k b)%nat by (apply IHb; lia). lia.
  - assert (count k x <= maxo k a)%nat by (apply IH; lia). lia.
  - assert (count k x <= maxo k b)%nat by (apply IH; lia). lia.
  - unfold count. cbn. lia.
  - apply IH. exact Hm.
  - destruct (maxo k e) eqn:He; [|lia]. specialize (IHx ltac:(lia)). specialize (IHy ltac:(lia)). lia.
  - unfold count. cbn. lia.
  - destruct (maxo k e) eqn:He; [|lia]. specialize (IHx ltac:(lia)). specialize (IHy ltac:(lia)). lia.
Qed.
Lemma mino_ok k e fs : derives e fs -> (mino k e <= count k fs)%nat.
Proof.
  induction 1 as [l t Ht|r ch _ _|a b x y _ IHa _ IHb|a b x _ IH|a b x _ IH|e|e x _ IH|e x y _ IHx _ IHy|e|e x y _ IHx _ IHy]; cbn [mino] in *; rewrite ?count_app; try lia.
  - unfold count. cbn. destruct k as [r|ty]; cbn; [lia|]. destruct (forallb (ttype_eqb ty) l) eqn:Hin; [|lia].
    rewrite forallb_forall in Hin. specialize (Hin _ Ht). apply ttype_eqb_iff in Hin. subst ty. rewrite (proj2 (ttype_eqb_iff _ _) eq_refl). cbn. lia.
  - unfold count. cbn. destruct k as [r'|ty]; cbn; [|lia]. destruct (rule_eqb r r'); cbn; lia.
Qed.
Fixpoint kinds (e : ebnf) : list kind :=
  match e with
  | Tk l => map KTok l | NT r => [KRule r] | Sq a b | Al a b => kinds a ++ kinds b | Op a | Pl a | St a => kinds a
  end.
Lemma kinds_ok e fs : derives e fs -> forall c k, In c fs -> is_a c k -> In k (kinds e).
Proof.
  induction 1 as [l t Ht|r ch _ _|a b x y _ IHa _ IHb|a b x _ IH|a b x _ IH|e|e x _ IH|e x y _ IHx _ IHy|e|e x y _ IHx _ IHy]; intros c k Hc Hk; cbn [kinds] in *.
  - destruct Hc as [<-|[]]. cbn in Hk. subst k. apply in_map. exact Ht.
  - destruct Hc as [<-|[]]. cbn in Hk. subst k. left. reflexivity.
  - apply in_app_iff in Hc. apply in_app_iff. destruct Hc; eauto.
  - apply in_app_iff. eauto.
  - apply in_app_iff. eauto.
  - destruct Hc.
  - eauto.
  - apply in_app_iff in Hc. destruct Hc; eauto.
  - destruct Hc.
  - apply in_app_iff in Hc. destruct Hc; eauto.
Qed.
Lemma derives_subtree e fs : derives e fs -> forall c r ch, In c fs -> subtree (Node r ch) c -> derives (body r) ch.
Proof.
  induction 1 as [l t Ht|r0 ch0 H0 IH0|a b x y _ IHa _ IHb|a b x _ IH|a b x _ IH|e|e x _ IH|e x y _ IHx _ IHy|e|e x y _ IHx _ IHy]; intros c r ch Hc Hs; try apply in_app_iff in Hc; eauto.
  - destruct Hc as [<-|[]]. inversion Hs.
  - destruct Hc as [<-|[]]. inversion Hs as [|r1 ch1 c1 Hc1 Hs1]; subst; [exact H0|]. eapply IH0; eassumption.
  - destruct Hc; eauto.
  - destruct Hc.
  - destruct Hc; eauto.
  - destruct Hc.
  - destruct Hc; eauto.
Qed.
Definition kind_eqb (a b : kind) : bool := match a, b with KRule x, KRule y => rule_eqb x y | KTok x, KTok y => ttype_eqb x y | _, _ => false end.
Lemma kind_eqb_iff a b : kind_eqb a b = true <-> a = b.
Proof. destruct a, b; cbn; rewrite ?rule_eqb_iff, ?ttype_eqb_iff; split; congruence. Qed.
Fixpoint pairwise {A} (f : A -> A -> bool) (l : list A) : bool := match l with [] => true | a :: l' => forallb (f a) l' && pairwise f l' end.
Definition all_rules : list rule :=
  [query; main_query; query_disjunction; query_sequence; query_group; query_simple; quantifier; query_implicit; query_segment; within_part; within_part_simple; expression; expression_or;
   expression_and; expression_group; expression_not; expression_basic; attribute; qualifier; identifier; regexp; regexp_pattern; regexp_flag].
Lemma all_rules_ok r : In r all_rules.
Proof. destruct r; cbn; tauto. Qed.
Lemma acc_table : forallb (fun r =>
    forallb (fun a => a_indexed a || (maxo (a_kind a) (body r) <=? 1)%nat) (accessors r) &&
    forallb (fun k => existsb (fun a => kind_eqb (a_kind a) k) (accessors r)) (kinds (body r)) &&
    pairwise (fun a b => negb (kind_eqb (a_kind a) (a_kind b))) (accessors r) &&
    pairwise (fun a b => if list_eq_dec N.eq_dec (a_name a) (a_name b) then false else true) (accessors r) &&
    forallb (fun k => (1 <=? mino k (body r))%nat) (always r)) all_rules = true.
Proof. vm_compute. reflexivity. Qed.
Lemma acc_row r : 
    (forall a, In a (accessors r) -> a_indexed a = true \/ (maxo (a_kind a) (body r) <= 1)%nat) /\
    (forall k, In k (kinds (body r)) -> exists a, In a (accessors r) /\ a_kind a = k) /\
    (forall a b, In a (accessors r) -> In b (accessors r) -> a_kind a = a_kind b -> a = b) /\
    NoDup (map a_name (accessors r)) /\
    (forall k, In k (always r) -> (1 <= mino k (body r))%nat).
Proof.
  pose proof (proj1 (forallb_forall _ _) acc_table r (all_rules_ok r)) as H. cbv beta in H. rewrite !andb_true_iff in H. destruct H as ((((H1 & H2) & H3) & H4) & H5).
  rewrite forallb_forall in H1, H2, H5. repeat apply conj.
  - intros a Ha. specialize (H1 a Ha). apply orb_true_iff in H1. destruct H1 as [H1|H1]; [left; exact H1|right; apply Nat.leb_le; exact H1].
  - intros k Hk. specialize (H2 k Hk). apply existsb_exists in H2. destruct H2 as (a & Ha & E). apply kind_eqb_iff in E. eauto.
  - clear -H3. induction (accessors r) as [|x l IH]; [intros a b []|]. cbn in H3. apply andb_true_iff in H3. destruct H3 as [Hx H3]. rewrite forallb_forall in Hx. specialize (IH H3).
    intros a b [<-|Ha] [<-|Hb] E; [reflexivity| | |eauto].
    + specialize (Hx _ Hb). rewrite (proj2 (kind_eqb_iff _ _) E) in Hx. discriminate.
    + specialize (Hx _ Ha). rewrite (proj2 (kind_eqb_iff _ _) (eq_sym E)) in Hx. discriminate.
  - clear -H4. induction (accessors r) as [|x l IH]; [constructor|]. cbn in H4. apply andb_true_iff in H4. destruct H4 as [Hx H4]. rewrite forallb_forall in Hx. cbn. constructor; [|exact (IH H4)].
    intros Hin. apply in_map_iff in Hin. destruct Hin as (b & E & Hb). specialize (Hx _ Hb). destruct (list_eq_dec N.eq_dec (a_name x) (a_name b)); congruence.
  - intros k Hk. apply Nat.leb_le. exact (H5 k Hk).
Qed.
Lemma those_none {A} (P : A -> Prop) l : those P l [] -> forall a, In a l -> ~ P a.
Proof. remember [] as r. induction 1; intros a Ha; [destruct Ha|discriminate|]. destruct Ha as [<-|Ha]; [assumption|]. apply IHthose; auto. Qed.
Lemma those_one {A} (P : A -> Prop) l x : those P l [x] -> exists l1 l2, l = l1 ++ x :: l2 /\ P x /\ forall a, In a l1 \/ In a l2 -> ~ P a.
Proof.
  remember [x] as r. induction 1 as [|c ch l Hc Ht IH|c ch l Hc Ht IH]; [discriminate| |].
  - injection Heqr as -> ->. exists [], ch. split; [reflexivity|]. split; [exact Hc|]. intros a [[]|Ha]. eapply those_none; eassumption.
  - destruct (IH Heqr) as (l1 & l2 & -> & Hx & Hn). exists (c :: l1), l2. split; [reflexivity|]. split; [exact Hx|]. intros a [[<-|Ha]|Ha]; auto.
Qed.
Lemma antlr_tree q t : antlr_parse q = Ok t -> parse_tree query t /\ leaves t = tokens q.
Proof.
  unfold antlr_parse. destruct (antlr_query (tokens q)) as [t'|] eqn:Ht; [|discriminate]. intros E. injection E as <-.
  assert (Hc : conforms (tokens q)). { apply in_grammar_conforms. unfold antlr_query in Ht. destruct (in_grammar (tokens q)); [reflexivity|discriminate]. }
  destruct (antlr_query_selects _ Hc) as (t2 & H & _ & Hp & Hl). rewrite Ht in H. injection H as <-. auto.
Qed.

(** ** C60: accessors *)
(** Every child of every context is found by exactly one accessor of its class; an accessor with index returns the children of its kind
    in order, one without returns the only one, or None if there is none. *)
Theorem C60_accessors : forall q t r ch, antlr_parse q = Ok t -> subtree (Node r ch) t ->
  NoDup (map a_name (accessors r)) /\
  (forall c, In c ch -> exists a, In a (accessors r) /\ is_a c (a_kind a) /\ forall b, In b (accessors r) -> is_a c (a_kind b) -> b = a) /\
  forall a, In a (accessors r) ->
    if a_indexed a then
      exists l, those (fun c => is_a c (a_kind a)) ch l /\ call_accessor a None ch = VList l /\ forall i, call_accessor a (Some i) ch = VOne (nth_error l i)
    else
      (exists c l1 l2, ch = l1 ++ c :: l2 /\ is_a c (a_kind a) /\ (forall c', In c' l1 \/ In c' l2 -> ~ is_a c' (a_kind a)) /\ call_accessor a None ch = VOne (Some c)) \/
      ((forall c, In c ch -> ~ is_a c (a_kind a)) /\ call_accessor a None ch = VOne None).
Proof.
  intros q t r ch Ha Hs. apply antlr_tree in Ha. destruct Ha as [Hp _].
  assert (Hd : derives (body r) ch) by (eapply derives_subtree; [exact Hp|left; reflexivity|exact Hs]).
  destruct (acc_row r) as (H1 & H2 & H3 & H4 & _). split; [exact H4|]. split.
  - intros c Hc. destruct (H2 (match c with Node r' _ => KRule r' | Leaf k => KTok (t_type k) end)) as (a & Ha & Hk).
    { eapply kinds_ok; [exact Hd|exact Hc|]. destruct c; reflexivity. }
    exists a. split; [exact Ha|]. split; [destruct c; cbn; congruence|]. intros b Hb Hbk. apply H3; [exact Hb|exact Ha|]. rewrite Hk. destruct c; exact Hbk.
  - intros a Ha. pose proof (those_filter (fun c => is_a c (a_kind a)) (of_kind (a_kind a)) ch (of_kind_is_a (a_kind a))) as Ht. specialize (H1 a Ha).
    unfold call_accessor. destruct (a_indexed a).
    + exists (get_all (a_kind a) ch). split; [exact Ht|]. split; [reflexivity|]. intros i. rewrite get_at_nth. reflexivity.
    + destruct H1 as [H1|H1]; [discriminate|]. pose proof (maxo_ok _ _ _ Hd H1) as Hm. unfold count in Hm. rewrite get_at_nth. unfold get_all.
      destruct (filter (of_kind (a_kind a)) ch) as [|x [|y l]] eqn:Hf; cbn in Hm; [right|left|lia].
      * split; [apply those_none; exact Ht|reflexivity].
      * destruct (those_one _ _ _ Ht) as (l1 & l2 & E & Hx & Hn). exists x, l1, l2. auto.
Qed.

(** Which children can be relied on: exactly those of [always]. *)
Fixpoint all_contexts (t : ptree) : list ptree := match t with Leaf _ => [] | Node _ ch => t :: flat_map all_contexts ch end.
Lemma all_contexts_sub x t : In x (all_contexts t) -> subtree x t.
Proof.
  induction t as [k|r ch IH] using ptree_ind'; [intros []|]. cbn. intros [<-|H]; [constructor|]. apply in_flat_map in H. destruct H as (c & Hc & Hx).
  econstructor; [exact Hc|]. rewrite Forall_forall in IH. apply IH; assumption.
Qed.
Definition sample_texts : list pystr := map u
  ["'a'"; "'a'/i"; "('a' | 'b' 'c' | ([]))+ within s"; "'a' | 'b'"; "'a' ('b' 'c')"; "('b' 'c')* 'd'"; "[a = 'x']{2} []{,3} []{1,}"; "'a'? 'b'*";
   "[q:a != 'x' & b = 'y' | c = 'z']"; "[!(a = 'x' & !b = 'z' )]"; "[(a = 'x') | !(b='y')]"; "[(a='x' | b='y')]"; "[!a = 'x']"; "[((a='x'))]"; "[(!a='x')]"; "[!!a='x']"; "[a = 'x' & b = 'y']";
   "[a='x' & !b='y']"; "[(a='x') & (b='y')]"; "[(a='x') | (b='y')]"; "[!a='x' | !b='y']"; "[!a='x' & !b='y']"; "[a='x' | b='y']"; "[within:s='x']"; "[s:within='x']"; "[i:c='x']"; "[ab:cd='x']"; "[b:l='x']"; "'a' 'b'"; "[] []"; "([]) ([])"; "('a') | ('b')"; "[a='x' | (b = 'y')]"; "[(a='x' & b='y') | c='z']"]%string.
Definition sample_contexts : list ptree := flat_map (fun q => match antlr_parse q with Ok t => all_contexts t | Raise _ => [] end) sample_texts.
Definition all_types : list ttype :=
  [EOF; L_PAREN; R_PAREN; L_SQUARE_BRACKET; R_SQUARE_BRACKET; OR; AND; NOT; FWD_SLASH; L_CURLY_BRACKET; R_CURLY_BRACKET; Q_ONE_OR_MORE; Q_ZERO_OR_MORE; Q_ZERO_OR_ONE; Q_COMMA; OPERATOR_EQ;
   OPERATOR_NE; COLON; WITHIN; SIMPLE_WITHIN_SCOPE; REGEXP_FLAGS; IDENTIFIER; INTEGER; REGEXP; QUOTED_STRING; Space].
Definition all_kinds : list kind := map KTok all_types ++ map KRule all_rules.
Lemma all_kinds_ok k : In k all_kinds.
Proof. apply in_app_iff. destruct k as [r|t]; [right; apply in_map, all_rules_ok|left; apply in_map; destruct t; cbn; tauto]. Qed.
Lemma sample_table : let L := sample_contexts in forallb (fun r => let Lr := filter (of_kind (KRule r)) L in
  forallb (fun k => existsb (kind_eqb k) (always r) || existsb (fun c => match c with Node _ ch => negb (existsb (of_kind k) ch) | Leaf _ => false end) Lr) all_kinds) all_rules = true.
Proof. vm_compute. reflexivity. Qed.
Theorem C60_always : forall r k, In k (always r) <->
  forall q t ch, antlr_parse q = Ok t -> subtree (Node r ch) t -> exists c, In c ch /\ is_a c k.
Proof.
  intros r k. split.
  - intros Hk q t ch Ha Hs. apply antlr_tree in Ha. destruct Ha as [Hp _].
    assert (Hd : derives (body r) ch) by (eapply derives_subtree; [exact Hp|left; reflexivity|exact Hs]).
    destruct (acc_row r) as (_ & _ & _ & _ & H5). pose proof (mino_ok k _ _ Hd) as Hm. specialize (H5 k Hk). unfold count in Hm.
    destruct (filter (of_kind k) ch) as [|c l] eqn:Hf; [cbn in Hm; lia|]. exists c.
    assert (Hc : In c (filter (of_kind k) ch)) by (rewrite Hf; left; reflexivity). apply filter_In in Hc. destruct Hc as [Hc Hk']. split; [exact Hc|apply of_kind_is_a; exact Hk'].
  - intros H. pose proof (proj1 (forallb_forall _ _) sample_table r (all_rules_ok r)) as Hr. cbv beta zeta in Hr.
    pose proof (proj1 (forallb_forall _ _) Hr k (all_kinds_ok k)) as Hk. cbv beta in Hk. apply orb_true_iff in Hk. destruct Hk as [Hk|Hk].
    + apply existsb_exists in Hk. destruct Hk as (k' & Hk' & E). apply kind_eqb_iff in E. subst. exact Hk'.
    + exfalso. apply existsb_exists in Hk. destruct Hk as (c & Hc & Hn). apply filter_In in Hc. destruct Hc as [Hc Hck]. apply of_kind_is_a in Hck.
      unfold sample_contexts in Hc. apply in_flat_map in Hc. destruct Hc as (q & _ & Hc). destruct (antlr_parse q) as [t|] eqn:Ht; [|destruct Hc].
      destruct c as [k0|r0 ch]; [discriminate|]. cbn in Hck. injection Hck as <-. destruct (H q t ch Ht (all_contexts_sub _ _ Hc)) as (c & Hc' & Hi).
      apply negb_true_iff in Hn. rewrite <- not_true_iff_false in Hn. apply Hn. apply existsb_exists. exists c. split; [exact Hc'|apply of_kind_is_a; exact Hi].
Qed.

(** ** C60: listeners *)
Notation str_eq := (list_eq_dec N.eq_dec).
Definition str_eqb (a b : pystr) : bool := if str_eq a b then true else false.
Lemma names_table : forallb (fun r => forallb (fun r' => Bool.eqb (str_eqb (enter_name r) (enter_name r')) (rule_eqb r r') &&
    Bool.eqb (str_eqb (exit_name r) (exit_name r')) (rule_eqb r r') && Bool.eqb (str_eqb (visit_name r) (visit_name r')) (rule_eqb r r') &&
    negb (str_eqb (enter_name r) (exit_name r'))) all_rules) all_rules = true.
Proof. vm_compute. reflexivity. Qed.
Lemma str_eqb_iff a b : str_eqb a b = true <-> a = b.
Proof. unfold str_eqb. destruct (str_eq a b); split; congruence. Qed.
Lemma names_row r r' : (enter_name r = enter_name r' -> r = r') /\ (exit_name r = exit_name r' -> r = r') /\ (visit_name r = visit_name r' -> r = r') /\ enter_name r <> exit_name r'.
Proof.
  pose proof (proj1 (forallb_forall _ _) names_table r (all_rules_ok r)) as H. cbv beta in H. pose proof (proj1 (forallb_forall _ _) H r' (all_rules_ok r')) as H'. cbv beta in H'.
  rewrite !andb_true_iff, !Bool.eqb_true_iff, negb_true_iff in H'. destruct H' as (((H1 & H2) & H3) & H4). repeat apply conj; intros E.
  - rewrite (proj2 (str_eqb_iff _ _) E) in H1. apply rule_eqb_iff. auto.
  - rewrite (proj2 (str_eqb_iff _ _) E) in H2. apply rule_eqb_iff. auto.
  - rewrite (proj2 (str_eqb_iff _ _) E) in H3. apply rule_eqb_iff. auto.
  - rewrite (proj2 (str_eqb_iff _ _) E) in H4. discriminate.
Qed.
Lemma calls_of_app m a b : calls_of m (a ++ b) = calls_of m a ++ calls_of m b.
Proof. apply flat_map_app. Qed.
Lemma terminals_app a b : terminals (a ++ b) = terminals a ++ terminals b.
Proof. apply flat_map_app. Qed.
Lemma calls_of_if m m' t (b : bool) : calls_of m (if b then [Call m' t] else []) = if b && str_eqb m' m then [t] else [].
Proof. unfold str_eqb. destruct b; [|reflexivity]. cbn. destruct (str_eq m' m); reflexivity. Qed.
Lemma terminals_if (b : bool) m t : terminals (if b then [Call m t] else []) = [].
Proof. destruct b; reflexivity. Qed.
Lemma flat_ext {A B C} (f : A -> list B) (g : B -> list C) (h : A -> list C) l : Forall (fun a => flat_map g (f a) = h a) l -> flat_map g (flat_map f l) = flat_map h l.
Proof. induction 1 as [|a l Ha _ IH]; [reflexivity|]. cbn. rewrite flat_map_app, Ha, IH. reflexivity. Qed.
Lemma walk_terminals has t : terminals (walk has t) = leaves t.
Proof.
  induction t as [k|r ch IH] using ptree_ind'; [reflexivity|]. cbn [walk leaves]. change (EnterEvery (Node r ch) :: ?l) with ([EnterEvery (Node r ch)] ++ l).
  rewrite !terminals_app, !terminals_if. cbn [terminals app flat_map]. rewrite app_nil_r. apply flat_ext. exact IH.
Qed.
Lemma eqb_rule_enter r r' : str_eqb (enter_name r) (enter_name r') = rule_eqb r r'.
Proof. apply Bool.eq_iff_eq_true. rewrite str_eqb_iff, rule_eqb_iff. split; [apply names_row|congruence]. Qed.
Lemma eqb_rule_exit r r' : str_eqb (exit_name r) (exit_name r') = rule_eqb r r'.
Proof. apply Bool.eq_iff_eq_true. rewrite str_eqb_iff, rule_eqb_iff. split; [apply names_row|congruence]. Qed.
Lemma eqb_rule_visit r r' : str_eqb (visit_name r) (visit_name r') = rule_eqb r r'.
Proof. apply Bool.eq_iff_eq_true. rewrite str_eqb_iff, rule_eqb_iff. split; [apply names_row|congruence]. Qed.
Lemma eqb_no a b : a <> b -> str_eqb a b = false.
Proof. intros H. rewrite <- not_true_iff_false, str_eqb_iff. exact H. Qed.
Lemma flat_none {A B} (f : A -> list B) l : (forall a, In a l -> f a = []) -> flat_map f l = [].
Proof. induction l as [|a l IH]; intros H; [reflexivity|]. cbn. rewrite (H a) by (left; reflexivity). apply IH. intros b Hb. apply H. right. exact Hb. Qed.
Lemma walk_enter has r t : calls_of (enter_name r) (walk has t) = if has (enter_name r) then pre r t else [].
Proof.
  induction t as [k|r' ch IH] using ptree_ind'; [destruct (has _); reflexivity|]. cbn [walk pre]. change (EnterEvery (Node r' ch) :: ?l) with ([EnterEvery (Node r' ch)] ++ l).
  rewrite !calls_of_app, !calls_of_if, eqb_rule_enter, (eqb_no (exit_name r') (enter_name r)) by (intros E; symmetry in E; apply names_row in E; exact E).
  rewrite andb_false_r. cbn [calls_of app flat_map]. rewrite app_nil_r. change (flat_map _ (flat_map (walk has) ch)) with (calls_of (enter_name r) (flat_map (walk has) ch)).
  unfold calls_of. rewrite (flat_ext _ _ _ _ IH). destruct (rule_eqb r' r) eqn:Hr; rewrite ?andb_true_r, ?andb_false_r.
  - apply rule_eqb_iff in Hr. subst r'. destruct (has (enter_name r)); [reflexivity|]. cbn. apply flat_none. reflexivity.
  - cbn. destruct (has (enter_name r)); [reflexivity|]. apply flat_none. reflexivity.
Qed.
Lemma walk_exit has r t : calls_of (exit_name r) (walk has t) = if has (exit_name r) then post r t else [].
Proof.
  induction t as [k|r' ch IH] using ptree_ind'; [destruct (has _); reflexivity|]. cbn [walk post]. change (EnterEvery (Node r' ch) :: ?l) with ([EnterEvery (Node r' ch)] ++ l).
  rewrite !calls_of_app, !calls_of_if, eqb_rule_exit, (eqb_no (enter_name r') (exit_name r)) by (apply names_row).
  rewrite andb_false_r. change (calls_of (exit_name r) [ExitEvery (Node r' ch)]) with (@nil ptree). change (calls_of (exit_name r) [EnterEvery (Node r' ch)]) with (@nil ptree). cbn [app]. rewrite app_nil_r.
  unfold calls_of at 1. rewrite (flat_ext _ _ _ _ IH). destruct (rule_eqb r' r) eqn:Hr; rewrite ?andb_true_r, ?andb_false_r.
  - apply rule_eqb_iff in Hr. subst r'. destruct (has (exit_name r)); [reflexivity|]. rewrite app_nil_r. apply flat_none. reflexivity.
  - rewrite !app_nil_r. destruct (has (exit_name r)); [reflexivity|]. apply flat_none. reflexivity.
Qed.
Lemma walk_other has m t : (forall r, m <> enter_name r /\ m <> exit_name r) -> calls_of m (walk has t) = [].
Proof.
  intros Hm. induction t as [k|r' ch IH] using ptree_ind'; [reflexivity|]. cbn [walk]. change (EnterEvery (Node r' ch) :: ?l) with ([EnterEvery (Node r' ch)] ++ l).
  rewrite !calls_of_app, !calls_of_if, !eqb_no, !andb_false_r by (intros E; symmetry in E; apply Hm in E; exact E).
  change (calls_of m [ExitEvery (Node r' ch)]) with (@nil ptree). change (calls_of m [EnterEvery (Node r' ch)]) with (@nil ptree). cbn [app]. rewrite app_nil_r.
  unfold calls_of at 1. rewrite (flat_ext _ _ _ _ IH). apply flat_none. reflexivity.
Qed.
Lemma with_stack_walk has t : forall st l, with_stack (walk has t ++ l) st = match with_stack l st with Some (o, s) => Some (paths st t ++ o, s) | None => None end.
Proof.
  induction t as [k|r ch IH] using ptree_ind'; intros st l; [cbn; destruct (with_stack l st) as [[o s]|]; reflexivity|].
  cbn [walk paths]. 
  assert (Hc : forall l', with_stack (flat_map (walk has) ch ++ l') (r :: st) = match with_stack l' (r :: st) with Some (o, s) => Some (flat_map (paths (r :: st)) ch ++ o, s) | None => None end).
  { induction IH as [|c ch Hc _ IH']; intros l'; [cbn [flat_map app]; destruct (with_stack l' (r :: st)) as [[o s]|]; reflexivity|].
    cbn [flat_map]. rewrite <- app_assoc, Hc, IH'. destruct (with_stack l' (r :: st)) as [[o s]|]; [|reflexivity]. rewrite app_assoc. reflexivity. }
  assert (Hi : forall (b : bool) m x l' st', with_stack ((if b then [Call m x] else []) ++ l') st' = with_stack l' st') by (intros [|]; reflexivity).
  cbn [app]. cbn [with_stack]. rewrite <- !app_assoc, Hi, Hc, Hi. cbn [app with_stack]. rewrite (proj2 (rule_eqb_iff r r) eq_refl). reflexivity.
Qed.
(** A walk shows a listener all tokens in order, calls each of its methods for exactly the contexts of its rule (entering: outer
    before inner, leaving: inner before outer), and properly nested: a listener that keeps a stack knows the path to every token. *)
Theorem C60_walk : forall q t has, antlr_parse q = Ok t ->
  terminals (walk has t) = tokens q /\
  (forall r, calls_of (enter_name r) (walk has t) = if has (enter_name r) then pre r t else []) /\
  (forall r, calls_of (exit_name r) (walk has t) = if has (exit_name r) then post r t else []) /\
  (forall m, (forall r, m <> enter_name r /\ m <> exit_name r) -> calls_of m (walk has t) = []) /\
  with_stack (walk has t) [] = Some (paths [] t, []).
Proof.
  intros q t has Ha. apply antlr_tree in Ha. destruct Ha as [_ Hl]. rewrite walk_terminals. split; [exact Hl|]. split; [intros r; apply walk_enter|].
  split; [intros r; apply walk_exit|]. split; [intros m; apply walk_other|]. rewrite <- (app_nil_r (walk has t)), with_stack_walk. cbn. rewrite app_nil_r. reflexivity.
Qed.
(** The names of the calls and the tokens are enough to rebuild the tree. *)
Lemma walk_prefix t : forall t' s s', map look (walk (fun _ => true) t) ++ s = map look (walk (fun _ => true) t') ++ s' -> t = t' /\ s = s'.
Proof.
  induction t as [k|r ch IH] using ptree_ind'; intros [k'|r' ch'] s s' H; try discriminate.
  - cbn in H. injection H as -> ->. auto.
  - cbn [walk map look] in H. cbn [app map look] in H. rewrite !map_app in H. cbn [map look] in H. injection H as Hn H. apply names_row in Hn. subst r'.
    rewrite <- !app_assoc in H. cbn [app] in H.
    assert (Hc : ch = ch' /\ SCall (exit_name r) :: SExit :: s = SCall (exit_name r) :: SExit :: s').
    { revert ch' H. induction IH as [|c ch Hc _ IH']; intros [|c' ch'] H; cbn [flat_map map] in H.
      - split; [reflexivity|exact H].
      - exfalso. destruct c' as [k'|r' ch2]; discriminate.
      - exfalso. destruct c as [k'|r' ch2]; discriminate.
      - rewrite !map_app, <- !app_assoc in H. apply Hc in H. destruct H as [-> H]. apply IH' in H. destruct H as [-> H]. auto. }
    destruct Hc as [-> E]. injection E as ->. auto.
Qed.
Theorem C60_rebuild : forall t t', map look (walk (fun _ => true) t) = map look (walk (fun _ => true) t') -> t = t'.
Proof. intros t t' H. apply (walk_prefix t t' [] []). rewrite !app_nil_r. exact H. Qed.

(** ** C60: visitors *)
Theorem C60_visit : forall q t has, antlr_parse q = Ok t ->
  terminals (visit_calls has t) = tokens q /\
  (forall r, calls_of (visit_name r) (visit_calls has t) = if has (visit_name r) then pre r t else []) /\
  (forall m, (forall r, m <> visit_name r) -> calls_of m (visit_calls has t) = []).
Proof.
  intros q t has Ha. apply antlr_tree in Ha. destruct Ha as [_ <-]. split; [|split].
  - clear. induction t as [k|r ch IH] using ptree_ind'; [reflexivity|]. cbn [visit_calls leaves]. rewrite terminals_app, terminals_if. apply flat_ext. exact IH.
  - intros r. clear. induction t as [k|r' ch IH] using ptree_ind'; [destruct (has _); reflexivity|]. cbn [visit_calls pre].
    rewrite calls_of_app, calls_of_if, eqb_rule_visit. unfold calls_of. rewrite (flat_ext _ _ _ _ IH). destruct (rule_eqb r' r) eqn:Hr; rewrite ?andb_true_r, ?andb_false_r.
    + apply rule_eqb_iff in Hr. subst r'. destruct (has (visit_name r)); [reflexivity|]. cbn. apply flat_none. reflexivity.
    + cbn. destruct (has (visit_name r)); [reflexivity|]. apply flat_none. reflexivity.
  - intros m Hm. clear -Hm. induction t as [k|r' ch IH] using ptree_ind'; [reflexivity|]. cbn [visit_calls]. rewrite calls_of_app, calls_of_if, eqb_no, andb_false_r by (intros E; symmetry in E; apply Hm in E; exact E).
    unfold calls_of. rewrite (flat_ext _ _ _ _ IH). apply flat_none. reflexivity.
Qed.
(** The value of a visit is that of the last child; so without a [visitQuery] of its own a visitor's value for the whole tree
    is what it makes of the end of the input, whatever its other methods return. *)
Theorem C60_visit_value : forall q t A none terminal (meth : pystr -> option (ptree -> A)), antlr_parse q = Ok t ->
  meth (u "visitQuery") = None -> exists k, t_type k = EOF /\ last (tokens q) k = k /\ visit_value none terminal meth t = terminal k.
Proof.
  intros q t A none terminal meth Ha Hm. apply antlr_tree in Ha. destruct Ha as [Hp Hl].
  inversion Hp as [|r ch Hd| | | | | | | |]; subst. cbn [body] in Hd.
  inversion Hd as [| |a b x y Hx Hy| | | | | | |]; subst. inversion Hy as [| |a' b' x' y' Hx' Hy'| | | | | | |]; subst. inversion Hy' as [l k Hk| | | | | | | | |]; subst. destruct Hk as [Hk|[]].
  exists k. split; [auto|]. split.
  - rewrite <- Hl. cbn [leaves]. rewrite !flat_map_app. cbn [flat_map leaves app]. rewrite app_assoc. apply last_last.
  - cbn [visit_value visit_name]. rewrite Hm, !fold_left_app. reflexivity.
Qed.

(** ** C60: names *)
(** The tables fit together: the number of a rule is that of the table of the parser and of [ruleNames]; methods and accessors are
    named after the rules and token types; the listener and visitor classes have exactly these methods. *)
Theorem C60_names :
  (forall r, exists n, nth_error rule_names (rule_index r) = Some n /\ Z.of_nat (rule_index r) = Atn.rule_num r /\
     enter_name r = u "enter" ++ capital n /\ exit_name r = u "exit" ++ capital n /\ visit_name r = u "visit" ++ capital n) /\
  (forall r r', rule_index r = rule_index r' -> r = r') /\
  (forall r a, In a (accessors r) -> match a_kind a with
     | KRule r' => nth_error rule_names (rule_index r') = Some (a_name a)
     | KTok EOF => a_name a = u "EOF"
     | KTok ty => nth_error symbolic_names (Z.to_nat (type_number ty)) = Some (a_name a)
     end) /\
  (forall m, In m listener_methods <-> exists r, m = enter_name r \/ m = exit_name r) /\
  (forall m, In m visitor_methods <-> exists r, m = visit_name r) /\
  (forall m, In m builder_methods -> In m visitor_methods) /\
  (forall ty, type_number ty = lexer_type_number ty /\ type_number ty = GenParser.tnum ty) /\
  lexer_literal_names = literal_names /\ lexer_symbolic_names = symbolic_names.
Proof.
  repeat apply conj.
  - intros r. destruct r; (eexists; split; [reflexivity|]; repeat split).
  - intros r r' H. destruct r, r'; (reflexivity || discriminate H).
  - intros r a Ha. destruct r; cbn [accessors In] in Ha; repeat (destruct Ha as [<-|Ha]; [reflexivity|]); destruct Ha.
  - intros m. split.
    + intros H. cbn [listener_methods map In] in H. assert (Hb : existsb (fun r => str_eqb m (enter_name r) || str_eqb m (exit_name r)) all_rules = true).
      { repeat (destruct H as [<-|H]; [vm_compute; reflexivity|]). destruct H. }
      apply existsb_exists in Hb. destruct Hb as (r & _ & Hb). exists r. rewrite orb_true_iff, !str_eqb_iff in Hb. exact Hb.
    + intros (r & [->| ->]); (assert (Hb : existsb (str_eqb (enter_name r)) listener_methods = true /\ existsb (str_eqb (exit_name r)) listener_methods = true) by (destruct r; split; vm_compute; reflexivity)); destruct Hb as [H1 H2].
      * apply existsb_exists in H1. destruct H1 as (x & Hx & E). apply str_eqb_iff in E. subst. exact Hx.
      * apply existsb_exists in H2. destruct H2 as (x & Hx & E). apply str_eqb_iff in E. subst. exact Hx.
  - intros m. split.
    + intros H. cbn [visitor_methods map In] in H. assert (Hb : existsb (fun r => str_eqb m (visit_name r)) all_rules = true).
      { repeat (destruct H as [<-|H]; [vm_compute; reflexivity|]). destruct H. }
      apply existsb_exists in Hb. destruct Hb as (r & _ & Hb). exists r. rewrite !str_eqb_iff in Hb. exact Hb.
    + intros (r & ->). assert (H1 : existsb (str_eqb (visit_name r)) visitor_methods = true) by (destruct r; vm_compute; reflexivity).
      apply existsb_exists in H1. destruct H1 as (x & Hx & E). apply str_eqb_iff in E. subst. exact Hx.
  - assert (H : forallb (fun m => existsb (str_eqb m) visitor_methods) builder_methods = true) by (vm_compute; reflexivity). intros m Hm. rewrite forallb_forall in H. specialize (H m Hm).
    apply existsb_exists in H. destruct H as (x & Hx & E). apply str_eqb_iff in E. subst. exact Hx.
  - intros ty. destruct ty; split; reflexivity.
  - reflexivity.
  - reflexivity.
Qed.
(** A type with a literal name is always written that way; one without can be written in different ways. *)
Theorem C60_literal_names : forall ty, ty <> EOF ->
  match nth_error literal_names (Z.to_nat (type_number ty)) with
  | Some name => exists w, name = u "'" ++ w ++ u "'" /\ (forall w', spelled ty w' <-> w' = w) /\ forall q k, In k (tokens q) -> t_type k = ty -> t_text k = w
  | None => exists w w', w <> w' /\ spelled ty w /\ spelled ty w'
  end.
Proof.
  assert (Htok : forall ty w, ty <> EOF -> (forall w', spelled ty w' <-> w' = w) -> forall q k, In k (tokens q) -> t_type k = ty -> t_text k = w).
  { intros ty w Hne Hw q k Hk Ht. unfold tokens in Hk. apply in_app_iff in Hk. destruct Hk as [Hk|[<-|[]]]; [|exfalso; apply Hne; rewrite <- Ht; reflexivity].
    destruct (C04_types q k Hk) as [Hs _]. rewrite Ht in Hs. apply Hw. exact Hs. }
  intros ty Hne. destruct ty; try congruence;
    (match goal with |- match ?x with Some _ => _ | None => _ end => let v := eval vm_compute in x in change x with v; cbv iota beta end);
    try (match goal with |- exists w, ?name = _ /\ _ => exists (removelast (tl name)) end; split; [vm_compute; reflexivity|];
         split; [intros w'; cbn [spelled]; reflexivity|apply Htok; [discriminate|intros w'; cbn [spelled]; reflexivity]]).
  - exists (u "s"), (u "p"). split; [discriminate|]. split; eexists; constructor.
  - exists (u "i"), (u "c"). split; [discriminate|]. split; (split; [discriminate|]); (constructor; [discriminate|constructor]).
  - exists (u "x"), (u "y"). split; [discriminate|]. split; [exists 120%N, []|exists 121%N, []]; (split; [reflexivity|]; split; [left; lia|]; split; [constructor|]; intros [|a [|b w0]] E; discriminate E).
  - exists (u "1"), (u "2"). split; [discriminate|]. split; (split; [discriminate|]); (constructor; [unfold digit; vm_compute; split; discriminate|constructor]).
  - exists (u "''"), (u """"""). split; [discriminate|]. split; [exists 39%N, []|exists 34%N, []]; (split; [lia|]); (split; [constructor|reflexivity]).
  - exists (u "''"), (u """"""). split; [discriminate|]. split; [exists 39%N, []|exists 34%N, []]; (split; [lia|]); (split; [constructor|reflexivity]).
  - exists [32%N], [9%N]. split; [discriminate|]. split; eexists; (split; [reflexivity|]); unfold white_space; lia.
Qed.

(** ** Witnesses *)
Definition witness_query : pystr := u "('a' | [b = 'c' & !d = 'e'])+ 'f' within s".
Definition witness_tree : option ptree := match antlr_parse witness_query with Ok t => Some t | Raise _ => None end.
Example C60_witness : match witness_tree with
  | Some t => List.length (all_contexts t) = 31%nat /\ List.length (walk (fun m => existsb (str_eqb m) listener_methods) t) = 143%nat /\
      map (fun p => List.length (snd p)) (paths [] t) = [4; 9; 5; 7; 12; 10; 12; 9; 10; 13; 11; 13; 7; 4; 5; 7; 1; 3; 1]%nat /\ List.length (pre expression_basic t) = 2%nat
  | None => False
  end.
Proof. vm_compute. repeat split. Qed.
Print Assumptions C60_accessors. Print Assumptions C60_always. Print Assumptions C60_walk. Print Assumptions C60_rebuild. Print Assumptions C60_visit. Print Assumptions C60_visit_value.
Print Assumptions C60_names. Print Assumptions C60_literal_names.
