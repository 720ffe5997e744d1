(** Reading back [str(node)]. *)
From Coq Require Import String DecimalString DecimalFacts DecimalZ Decimal Ascii.
From Verif Require Import Base LexRules Lexer Ast AccessSpec ParseFacts TreeSpec.
Local Open Scope Z_scope.

(** ** Cutting strings *)
Definition stops (P : N -> Prop) (r : pystr) : Prop := match r with [] => True | c :: _ => ~ P c end.
Lemma span_eq (P : N -> Prop) : forall a b r1 r2, Forall P a -> Forall P b -> stops P r1 -> stops P r2 ->
  a ++ r1 = b ++ r2 -> a = b /\ r1 = r2.
Proof.
  induction a as [|x a IH]; intros [|y b] r1 r2 Ha Hb H1 H2 H; cbn in H.
  - auto.
  - subst r1. inversion Hb; subst. contradiction.
  - subst r2. inversion Ha; subst. contradiction.
  - injection H as -> H. inversion Ha; subst. inversion Hb; subst. destruct (IH b r1 r2) as [-> ->]; auto.
Qed.

(** ** Decimal numbers *)
Definition num_char (c : N) : Prop := (48 <= c <= 57 \/ c = 45)%N.
Lemma u_inj : forall a b, u a = u b -> a = b.
Proof.
  induction a as [|c a IH]; intros [|d b] H; cbn in H; try discriminate; [reflexivity|].
  injection H as H1 H2. f_equal; [|auto]. rewrite <- (ascii_N_embedding c), <- (ascii_N_embedding d), H1. reflexivity.
Qed.
Lemma dec_inj a b : dec a = dec b -> a = b.
Proof.
  unfold dec. intros H. apply u_inj in H.
  assert (Hn : forall z, Z.to_int z <> Pos Nil /\ Z.to_int z <> Neg Nil).
  { intros z. destruct z as [|p|p]; cbn; split; try discriminate.
    - intros Hx. injection Hx as Hx. exact (DecimalPos.Unsigned.to_uint_nonnil p Hx).
    - intros Hx. injection Hx as Hx. exact (DecimalPos.Unsigned.to_uint_nonnil p Hx). }
  apply (f_equal NilZero.int_of_string) in H. rewrite !NilZero.isi in H by apply Hn. injection H as H.
  apply DecimalZ.to_int_inj. exact H.
Qed.
Lemma uint_chars d : Forall num_char (u (NilEmpty.string_of_uint d)).
Proof. induction d; cbn; constructor; try (vm_compute; intuition discriminate); assumption. Qed.
Lemma dec_chars z : Forall num_char (dec z).
Proof.
  unfold dec. assert (H : forall d, Forall num_char (u (NilZero.string_of_uint d))).
  { intros d. destruct d; cbn; repeat constructor; try (vm_compute; intuition discriminate); apply uint_chars. }
  destruct (Z.to_int z); cbn [NilZero.string_of_int]; [apply H|]. cbn. constructor; [right; reflexivity|apply H].
Qed.
Lemma dec_ne z : dec z <> [].
Proof.
  unfold dec. assert (H : forall d, u (NilZero.string_of_uint d) <> []) by (intros []; discriminate).
  destruct (Z.to_int z); cbn [NilZero.string_of_int]; [apply H|discriminate].
Qed.

Definition closed (r : pystr) : Prop := match r with [] => True | c :: _ => (c = 32 \/ c = 41)%N end.
Ltac nochar := cbn; intros H'; unfold num_char in H'; repeat (destruct H' as [H'|H']; try lia); try discriminate; try lia.
Lemma closed_num r : closed r -> stops num_char r.
Proof. destruct r as [|c r]; cbn; [auto|]. unfold num_char. lia. Qed.
Lemma closed_at r r' : closed r -> r <> 64%N :: r'.
Proof. destruct r as [|c r]; cbn; [discriminate|]. intros [->| ->]; discriminate. Qed.

Lemma loc_suffix_inj l1 l2 r1 r2 : closed r1 -> closed r2 -> loc_suffix l1 ++ r1 = loc_suffix l2 ++ r2 -> l1 = l2 /\ r1 = r2.
Proof.
  intros H1 H2. destruct l1 as [[a b]|], l2 as [[a' b']|]; cbn [loc_suffix l_start l_stop].
  - rewrite <- !app_assoc. cbn [u app]. intros H. injection H as H.
    apply (span_eq num_char) in H; try apply dec_chars; try (cbn; unfold num_char; cbn; lia).
    destruct H as [Ha H]. cbn in H. injection H as H. apply (span_eq num_char) in H; try apply dec_chars; try (apply closed_num; assumption).
    destruct H as [Hb ->]. apply dec_inj in Ha. apply dec_inj in Hb. subst. auto.
  - cbn [app u]. intros H. symmetry in H. exfalso. exact (closed_at _ _ H2 H).
  - cbn [app u]. intros H. exfalso. exact (closed_at _ _ H1 H).
  - auto.
Qed.

Definition occ_char (c : N) : Prop := num_char c \/ c = 42%N.
Lemma occ_chars z : Forall occ_char (occ z).
Proof.
  unfold occ. destruct (z =? OCCURS_UNBOUNDED); [repeat constructor; right; reflexivity|].
  eapply Forall_impl; [|apply dec_chars]. intros c H. left. exact H.
Qed.
Lemma occ_inj a b : occ a = occ b -> a = b.
Proof.
  unfold occ. assert (Hs : forall z, dec z <> u "*").
  { intros z H. pose proof (dec_chars z) as Hc. rewrite H in Hc. inversion Hc as [|? ? Hx _]; subst. unfold num_char in Hx. cbn in Hx. lia. }
  destruct (Z.eqb_spec a OCCURS_UNBOUNDED), (Z.eqb_spec b OCCURS_UNBOUNDED); intros H; subst;
    first [reflexivity|exfalso; exact (Hs _ (eq_sym H))|exfalso; exact (Hs _ H)|apply dec_inj; exact H].
Qed.
Lemma occ_split a b r1 r2 : occ a ++ 32%N :: r1 = occ b ++ 32%N :: r2 -> a = b /\ r1 = r2.
Proof.
  intros H. apply (span_eq occ_char) in H; try apply occ_chars; try (cbn; unfold occ_char, num_char; cbn; lia).
  destruct H as [Ha H]. apply occ_inj in Ha. injection H as H. auto.
Qed.
(** A string that begins with an opening parenthesis. *)
Definition opened (r : pystr) : Prop := exists x, r = 40%N :: x.
Lemma occurs_split mn mx mn' mx' r1 r2 : opened r1 -> opened r2 ->
  occurs_str mn mx ++ r1 = occurs_str mn' mx' ++ r2 -> mn = mn' /\ mx = mx' /\ r1 = r2.
Proof.
  intros (x1 & ->) (x2 & ->). unfold occurs_str.
  destruct (Z.eqb_spec mn 1), (Z.eqb_spec mx 1), (Z.eqb_spec mn' 1), (Z.eqb_spec mx' 1); cbn [app]; rewrite <- ?app_assoc; cbn -[occ];
    intros H; try discriminate H; subst; auto.
  all: repeat match goal with
       | H : (64%N :: _) = (64%N :: _) |- _ => first [discriminate H|injection H as H]
       | H : occ _ ++ 32%N :: _ = occ _ ++ 32%N :: _ |- _ => apply occ_split in H; destruct H as [-> H]
       end; try discriminate; auto.
  all: repeat match goal with H : 40%N :: _ = 40%N :: _ |- _ => injection H as H; subst end; auto.
Qed.

(** ** Types *)
Definition type_char (c : N) : Prop := (65 <= c <= 90 \/ 97 <= c <= 122)%N.
Lemma type_chars t : Forall type_char (node_type_str t).
Proof. destruct t; cbn [node_type_str u]; repeat (apply Forall_cons; [unfold type_char; cbn; lia|]); apply Forall_nil. Qed.
Lemma type_inj a b : node_type_str a = node_type_str b -> a = b.
Proof. destruct a, b; cbn; intros H; try reflexivity; discriminate H. Qed.

(** ** Displayed text *)
Lemma esc_no_quote r : ~ In 34%N r -> ~ In 34%N (esc_display r).
Proof.
  unfold esc_display. intros H Hx. apply in_flat_map in Hx. destruct Hx as (c & Hc & Hx).
  destruct (N.eqb_spec c 10); [cbn in Hx; intuition discriminate|]. destruct (N.eqb_spec c 13); [cbn in Hx; intuition discriminate|].
  destruct (N.eqb_spec c 9); [cbn in Hx; intuition discriminate|]. destruct Hx as [->|[]]. exact (H Hc).
Qed.
Lemma esc_inj : forall r r', ~ In 92%N r -> ~ In 92%N r' -> esc_display r = esc_display r' -> r = r'.
Proof.
  unfold esc_display. induction r as [|c r IH]; intros [|c' r'] H H' Heq; cbn [flat_map] in Heq.
  - reflexivity.
  - exfalso. destruct (N.eqb c' 10), (N.eqb c' 13), (N.eqb c' 9); discriminate Heq.
  - exfalso. destruct (N.eqb c 10), (N.eqb c 13), (N.eqb c 9); discriminate Heq.
  - assert (Hc : c <> 92%N) by (intros ->; apply H; left; reflexivity).
    assert (Hc' : c' <> 92%N) by (intros ->; apply H'; left; reflexivity).
    assert (Hr : ~ In 92%N r) by (intros Hx; apply H; right; exact Hx).
    assert (Hr' : ~ In 92%N r') by (intros Hx; apply H'; right; exact Hx).
    destruct (N.eqb_spec c 10) as [->|]; [|destruct (N.eqb_spec c 13) as [->|]; [|destruct (N.eqb_spec c 9) as [->|]]];
    (destruct (N.eqb_spec c' 10) as [->|]; [|destruct (N.eqb_spec c' 13) as [->|]; [|destruct (N.eqb_spec c' 9) as [->|]]]);
      cbn [u app] in Heq; try discriminate Heq; injection Heq; intros; subst; try congruence; f_equal; auto.
Qed.

(** ** Expressions *)
Definition name_ok (s : pystr) : Prop := Forall (fun c => c <> 32%N /\ c <> 58%N) s.
Definition expr_ok (q : option pystr) (i r : pystr) (f : option flags) : Prop :=
  (forall s, q = Some s -> s <> [] /\ name_ok s) /\ name_ok i /\ ~ In 34%N r /\ ~ In 92%N r /\
  (forall s, f = Some s -> flags_nonempty s = true).
Definition qual_str (q : option pystr) : pystr := match q with Some s => s ++ u ":" | None => [] end.
Definition flag_str (f : option flags) : pystr :=
  match f with
  | Some s => u "/" ++ (if f_ci s then u "i" else []) ++ (if f_cs s then u "I" else [])
              ++ (if f_lit s then u "l" else []) ++ (if f_dia s then u "d" else [])
  | None => []
  end.
Definition expr_inner (q : option pystr) (i : pystr) (o : operator) (r : pystr) (f : option flags) : pystr :=
  32%N :: (qual_str q ++ i) ++ 32%N :: operator_str o ++ 32%N :: 34%N :: esc_display r ++ 34%N :: flag_str f.
Lemma expr_str_inner q i o r f : expr_ok q i r f ->
  expr_str q i o r f = 40%N :: node_type_str EXPRESSION ++ expr_inner q i o r f ++ [41%N].
Proof.
  intros (Hq & _ & _ & _ & Hf). unfold expr_str, expr_inner, qual_str, flag_str, dquote.
  assert (H1 : (if truthy q then match q with Some s => s ++ u ":" | None => [] end else []) = match q with Some s => s ++ u ":" | None => [] end).
  { destruct q as [[|c s]|]; [destruct (Hq [] eq_refl); congruence|reflexivity|reflexivity]. }
  rewrite H1. assert (H2 : (match f with Some s => if flags_nonempty s then
                   u "/" ++ (if f_ci s then u "i" else []) ++ (if f_cs s then u "I" else [])
                   ++ (if f_lit s then u "l" else []) ++ (if f_dia s then u "d" else []) else [] | None => [] end) =
      match f with Some s => u "/" ++ (if f_ci s then u "i" else []) ++ (if f_cs s then u "I" else [])
                   ++ (if f_lit s then u "l" else []) ++ (if f_dia s then u "d" else []) | None => [] end).
  { destruct f as [s|]; [|reflexivity]. rewrite (Hf s eq_refl). reflexivity. }
  rewrite H2. set (Q := match q with Some s => s ++ u ":" | None => [] end). set (F := match f with Some s => _ | None => _ end).
  change (u "(Expression ") with (40%N :: node_type_str EXPRESSION ++ [32%N]). change (u " ") with [32%N]. change (u ")") with [41%N].
  repeat (progress (cbn [app]; rewrite <- ?app_assoc)). reflexivity.
Qed.
Lemma name_split q i q' i' : (forall s, q = Some s -> s <> [] /\ name_ok s) -> (forall s, q' = Some s -> s <> [] /\ name_ok s) ->
  name_ok i -> name_ok i' -> qual_str q ++ i = qual_str q' ++ i' -> q = q' /\ i = i'.
Proof.
  intros Hq Hq' Hi Hi' H.
  assert (Hno : forall s x y, name_ok y -> s ++ 58%N :: x <> y).
  { intros s x y Hy Hx. subst y. apply Forall_app in Hy. destruct Hy as [_ Hy]. inversion Hy as [|? ? [_ Hc] _]; subst. congruence. }
  destruct q as [s|], q' as [s'|]; cbn [qual_str] in H; rewrite <- ?app_assoc in H; cbn [u app] in H.
  - destruct (Hq s eq_refl) as [_ Hs]. destruct (Hq' s' eq_refl) as [_ Hs'].
    apply (span_eq (fun c => c <> 58%N)) in H.
    + destruct H as [-> H]. injection H as ->. auto.
    + eapply Forall_impl; [|exact Hs]. cbn. tauto.
    + eapply Forall_impl; [|exact Hs']. cbn. tauto.
    + cbn. intros Hx. apply Hx. reflexivity.
    + cbn. intros Hx. apply Hx. reflexivity.
  - exfalso. exact (Hno _ _ _ Hi' H).
  - exfalso. exact (Hno _ _ _ Hi (eq_sym H)).
  - auto.
Qed.
Lemma qual_no_space q i : (forall s, q = Some s -> s <> [] /\ name_ok s) -> name_ok i -> Forall (fun c => c <> 32%N) (qual_str q ++ i).
Proof.
  intros Hq Hi. apply Forall_app. split; [|eapply Forall_impl; [|exact Hi]; cbn; tauto].
  destruct q as [s|]; cbn; [|constructor]. apply Forall_app. split; [|repeat constructor; discriminate].
  eapply Forall_impl; [|apply (Hq s eq_refl)]. cbn. tauto.
Qed.
Lemma flag_split f f' x x' : (forall s, f = Some s -> flags_nonempty s = true) -> (forall s, f' = Some s -> flags_nonempty s = true) ->
  flag_str f ++ 41%N :: x = flag_str f' ++ 41%N :: x' -> f = f' /\ x = x'.
Proof.
  intros Hf Hf'. destruct f as [[[] [] [] []]|], f' as [[[] [] [] []]|]; cbn; intros H; try discriminate H;
    try (specialize (Hf _ eq_refl); discriminate Hf); try (specialize (Hf' _ eq_refl); discriminate Hf');
    injection H as ->; auto.
Qed.
Lemma expr_split q i o r f q' i' o' r' f' x x' : expr_ok q i r f -> expr_ok q' i' r' f' ->
  expr_inner q i o r f ++ 41%N :: x = expr_inner q' i' o' r' f' ++ 41%N :: x' ->
  PExpr q i o r f = PExpr q' i' o' r' f' /\ x = x'.
Proof.
  intros (Hq & Hi & Hr1 & Hr2 & Hf) (Hq' & Hi' & Hr1' & Hr2' & Hf') H. unfold expr_inner in H.
  cbn [app] in H. injection H as H. rewrite <- !app_assoc in H.
  rewrite !(app_assoc (qual_str _)) in H. cbn [app] in H.
  apply (span_eq (fun c => c <> 32%N)) in H; try (apply qual_no_space; assumption); try (cbn; intros Hx; apply Hx; reflexivity).
  destruct H as [Hn H]. apply (name_split _ _ _ _ Hq Hq' Hi Hi') in Hn. destruct Hn as [-> ->].
  injection H as H. rewrite <- !app_assoc in H. cbn [app] in H.
  assert (Ho : o = o' /\ (esc_display r ++ 34%N :: flag_str f) ++ 41%N :: x = (esc_display r' ++ 34%N :: flag_str f') ++ 41%N :: x').
  { destruct o, o'; cbn in H; try discriminate H; injection H as H; auto. }
  destruct Ho as [-> Ho]. rewrite <- !app_assoc in Ho. cbn [app] in Ho.
  assert (Hnq : forall s, ~ In 34%N s -> Forall (fun c => c <> 34%N) s).
  { intros s Hs. apply Forall_forall. intros c Hc ->. exact (Hs Hc). }
  apply (span_eq (fun c => c <> 34%N)) in Ho; try (apply Hnq, esc_no_quote; assumption); try (cbn; intros Hx; apply Hx; reflexivity).
  destruct Ho as [Hr Ho]. apply esc_inj in Hr; try assumption. injection Ho as Ho. apply flag_split in Ho; try assumption.
  destruct Ho as [-> ->]. subst. auto.
Qed.

(** ** Nodes *)
Fixpoint strs (ch : list qnode) : res (list pystr) :=
  match ch with [] => Ok [] | c :: l => rbind (node_str c) (fun s => rmap (cons s) (strs l)) end.
Lemma node_str_eq p l ch : node_str (QN p l ch) = str_of p l (strs ch).
Proof.
  reflexivity.
Qed.
(** Conditions on a node and the classes of its children under which it can be read back. *)
Definition str_ok (p : payload) (cs : list class) : Prop :=
  match p with
  | PExpr q i o r f => cs = [] /\ expr_ok q i r f
  | PWildcard | PSimpleWithin _ => cs = []
  | PExprGroup | PNot => exists c, cs = [c]
  | PSegment _ _ => exists c, cs = [c] /\ c <> CQuerySequence /\ c <> CQueryDisjunction
  | PQGroup _ _ => exists c, cs = [c] /\ (c = CQuerySequence \/ c = CQueryDisjunction)
  | _ => True
  end.
Definition showable (n : qnode) : Prop := forall m, subnode m n -> str_ok (q_payload m) (map q_class (q_children m)).
Definition inner (p : payload) (ss : list pystr) : pystr :=
  match p with
  | PExpr q i o r f => expr_inner q i o r f
  | PSimpleWithin s => 32%N :: scope_str s
  | PExprGroup | PNot => 32%N :: first_or_none ss
  | PSegment mn mx | PQGroup mn mx => 32%N :: occurs_str mn mx ++ first_or_none ss
  | _ => sp_join ss
  end.
Lemma str_of_inner p l ch ss : str_ok p (map q_class ch) -> strs ch = Ok ss ->
  str_of p l (strs ch) = Ok (40%N :: node_type_str (ntype_of p) ++ inner p ss ++ 41%N :: loc_suffix l).
Proof.
  intros Hok Hs. rewrite Hs. unfold str_of, rmap, rbind. change (u "(") with [40%N]. change (u ")") with [41%N]. change (u " ") with [32%N].
  destruct p; cbn [inner str_ok] in *; cbn [app]; rewrite <- ?app_assoc; cbn [app]; rewrite <- ?app_assoc; try reflexivity.
  - rewrite (expr_str_inner _ _ _ _ _ (proj2 Hok)). cbn [app]. rewrite <- !app_assoc. reflexivity.
  - destruct Hok as (c & Hc & _). destruct ch as [|x ch]; [discriminate|]. cbn [strs] in Hs. destruct (node_str x); [|discriminate]. cbn [rbind] in Hs.
    destruct (strs ch); [|discriminate]. injection Hs as <-. cbn [first_or_none]. cbn [app]. rewrite <- ?app_assoc; cbn [app]; rewrite <- ?app_assoc; cbn [app]; rewrite <- ?app_assoc. reflexivity.
  - destruct Hok as (c & Hc & _). destruct ch as [|x ch]; [discriminate|]. cbn [strs] in Hs. destruct (node_str x); [|discriminate]. cbn [rbind] in Hs.
    destruct (strs ch); [|discriminate]. injection Hs as <-. cbn [first_or_none]. cbn [app]. rewrite <- ?app_assoc; cbn [app]; rewrite <- ?app_assoc; cbn [app]; rewrite <- ?app_assoc. reflexivity.
Qed.
Lemma showable_child p l ch c : showable (QN p l ch) -> In c ch -> showable c.
Proof. intros H Hc m Hm. apply H. econstructor; eassumption. Qed.

(** The string of [n] determines [n]. *)
Definition readable (n : qnode) : Prop := forall n' s s' r r', node_str n = Ok s -> showable n' -> node_str n' = Ok s' -> closed r -> closed r' ->
  s ++ r = s' ++ r' -> n = n' /\ r = r'.
Lemma str_total : forall n, showable n -> exists s, node_str n = Ok s /\ opened s.
Proof.
  induction n as [p l ch IH] using qnode_ind'. intros Hok.
  assert (Hs : exists ss, strs ch = Ok ss).
  { assert (Hc : forall c, In c ch -> showable c) by (intros c Hc; eapply showable_child; eassumption). clear Hok.
    induction IH as [|c ch Hx _ IH']; [exists []; reflexivity|]. destruct (Hx (Hc c (or_introl eq_refl))) as (s & Hs & _).
    destruct IH' as (ss & Hss); [intros c' Hc'; apply Hc; right; exact Hc'|]. exists (s :: ss). cbn [strs]. rewrite Hs, Hss. reflexivity. }
  destruct Hs as (ss & Hss). eexists. rewrite node_str_eq. split; [eapply str_of_inner; [|exact Hss]; exact (Hok _ (sub_here _))|]. eexists. reflexivity.
Qed.
Lemma opened_first ch ss : (forall c, In c ch -> showable c) -> strs ch = Ok ss -> Forall opened ss.
Proof.
  revert ss. induction ch as [|c ch IH]; intros ss Hc Hs; cbn [strs] in Hs; [injection Hs as <-; constructor|].
  destruct (str_total c (Hc c (or_introl eq_refl))) as (s & He & Ho). rewrite He in Hs. cbn [rbind] in Hs.
  destruct (strs ch) as [ss'|]; [|discriminate]. injection Hs as <-. constructor; [exact Ho|]. apply IH; [|reflexivity]. intros c' Hc'. apply Hc. right. exact Hc'.
Qed.
Lemma strs_join : forall ch ch' ss ss' x x', Forall readable ch -> (forall c, In c ch -> showable c) -> (forall c, In c ch' -> showable c) ->
  strs ch = Ok ss -> strs ch' = Ok ss' -> sp_join ss ++ 41%N :: x = sp_join ss' ++ 41%N :: x' -> ch = ch' /\ x = x'.
Proof.
  assert (Hj : forall s ss x, join (u " ") (s :: ss) ++ 41%N :: x = s ++ (match ss with [] => [] | _ => 32%N :: join (u " ") ss end ++ 41%N :: x)).
  { intros s [|s2 ss] x; [reflexivity|]. change (join (u " ") (s :: s2 :: ss)) with (s ++ u " " ++ join (u " ") (s2 :: ss)).
    rewrite <- !app_assoc. reflexivity. }
  assert (Hcl : forall ss x, closed (match ss with [] => [] | _ => 32%N :: join (u " ") ss end ++ 41%N :: x)) by (intros [|? ?] x; cbn; auto).
  assert (Hsp : forall ss, Forall opened ss -> sp_join ss = match ss with [] => [] | _ => 32%N :: join (u " ") ss end).
  { intros ss Ho. unfold sp_join. destruct ss as [|s ss]; [reflexivity|]. inversion Ho as [|? ? (y & ->) _]; subst. destruct ss; reflexivity. }
  assert (Hmain : forall ch ch' ss ss' x x', Forall readable ch -> (forall c, In c ch -> showable c) -> (forall c, In c ch' -> showable c) ->
    strs ch = Ok ss -> strs ch' = Ok ss' ->
    match ss with [] => [] | _ => 32%N :: join (u " ") ss end ++ 41%N :: x = match ss' with [] => [] | _ => 32%N :: join (u " ") ss' end ++ 41%N :: x' ->
    ch = ch' /\ x = x').
  { induction ch as [|c ch IH]; intros ch' ss ss' x x' Hr Hc Hc' Hs Hs' Heq.
    - cbn in Hs. injection Hs as <-. destruct ch' as [|c' ch']; cbn in Hs'; [injection Hs' as <-; injection Heq as ->; auto|].
      destruct (node_str c'); [|discriminate]. cbn in Hs'. destruct (strs ch'); [|discriminate]. injection Hs' as <-. discriminate Heq.
    - cbn [strs] in Hs. destruct (node_str c) as [s|] eqn:Hn; [|discriminate]. cbn [rbind] in Hs. destruct (strs ch) as [ss1|] eqn:Hs1; [|discriminate].
      injection Hs as <-. destruct ch' as [|c' ch']; cbn [strs] in Hs'; [injection Hs' as <-; discriminate Heq|].
      destruct (node_str c') as [s'|] eqn:Hn'; [|discriminate]. cbn [rbind] in Hs'. destruct (strs ch') as [ss1'|] eqn:Hs1'; [|discriminate].
      injection Hs' as <-. 
      assert (Heq2 : join (u " ") (s :: ss1) ++ 41%N :: x = join (u " ") (s' :: ss1') ++ 41%N :: x') by (injection Heq; auto). clear Heq. rename Heq2 into Heq.
      rewrite !Hj in Heq. inversion Hr as [|? ? Hrc Hrr]; subst.
      destruct (Hrc c' s s' _ _ Hn (Hc' c' (or_introl eq_refl)) Hn' (Hcl _ _) (Hcl _ _) Heq) as [-> Heq'].
      destruct (IH ch' ss1 ss1' x x' Hrr) as [-> ->]; auto; [intros d Hd; apply Hc; right; exact Hd|intros d Hd; apply Hc'; right; exact Hd]. }
  intros ch ch' ss ss' x x' Hr Hc Hc' Hs Hs' Heq. rewrite (Hsp ss (opened_first ch ss Hc Hs)), (Hsp ss' (opened_first ch' ss' Hc' Hs')) in Heq.
  eapply Hmain; eassumption.
Qed.
Lemma one_child (ch : list qnode) (cl : class) : map q_class ch = [cl] -> exists c, ch = [c] /\ q_class c = cl.
Proof. destruct ch as [|c [|]]; cbn; intros H; try discriminate. injection H as <-. eauto. Qed.
Lemma strs_one c ss : strs [c] = Ok ss -> exists s, node_str c = Ok s /\ ss = [s].
Proof. cbn. destruct (node_str c); [|discriminate]. cbn. intros H. injection H as <-. eauto. Qed.
Theorem all_readable : forall n, showable n -> readable n.
Proof.
  induction n as [p l ch IH] using qnode_ind'. intros Hok [p' l' ch'] s s' r r' Hs Hok' Hs' Hr Hr' Heq.
  assert (Hc : forall c, In c ch -> showable c) by (intros c Hcc; exact (showable_child _ _ _ _ Hok Hcc)).
  assert (Hc' : forall c, In c ch' -> showable c) by (intros c Hcc; exact (showable_child _ _ _ _ Hok' Hcc)).
  assert (IHr : Forall readable ch) by (rewrite Forall_forall in IH |- *; intros c Hcc; apply IH; auto). clear IH.
  pose proof (Hok _ (sub_here _)) as Hp. pose proof (Hok' _ (sub_here _)) as Hp'. cbn [q_payload q_children] in Hp, Hp'.
  rewrite node_str_eq in Hs, Hs'.
  assert (Hss : exists ss, strs ch = Ok ss) by (destruct (strs ch) eqn:Hx; [eauto|exfalso; destruct p; cbn in Hs; try discriminate Hs; cbn in Hp; try apply proj1 in Hp; apply map_eq_nil in Hp; subst ch; discriminate Hx]).
  assert (Hss' : exists ss, strs ch' = Ok ss) by (destruct (strs ch') eqn:Hx; [eauto|exfalso; destruct p'; cbn in Hs'; try discriminate Hs'; cbn in Hp'; try apply proj1 in Hp'; apply map_eq_nil in Hp'; subst ch'; discriminate Hx]).
  destruct Hss as (ss & Hss). destruct Hss' as (ss' & Hss').
  rewrite (str_of_inner _ _ _ _ Hp Hss) in Hs. rewrite (str_of_inner _ _ _ _ Hp' Hss') in Hs'. injection Hs as <-. injection Hs' as <-.
  cbn [app] in Heq. injection Heq as Heq. rewrite <- !app_assoc in Heq. cbn [app] in Heq.
  assert (Hst : forall p ss y, stops type_char (inner p ss ++ 41%N :: y)).
  { assert (Hsj : forall ss y, stops type_char (sp_join ss ++ 41%N :: y)).
    { intros ss0 y. unfold sp_join. destruct (join (u " ") ss0); cbn; unfold type_char; cbn; lia. }
    intros p0 ss0 y. destruct p0; cbn [inner]; try apply Hsj; cbn; unfold type_char; cbn; lia. }
  apply (span_eq type_char) in Heq; try apply type_chars; try apply Hst.
  destruct Heq as [Ht Heq]. apply type_inj in Ht. set (x := loc_suffix l ++ r) in *. set (x' := loc_suffix l' ++ r') in *.
  assert (Hgoal : p = p' /\ ch = ch' /\ x = x').
  { assert (Hmap : forall q, map q_class ch = [] -> map q_class ch' = [] -> q = p' /\ x = x' -> q = p' /\ ch = ch' /\ x = x').
    { intros q0 A B [D E]. apply map_eq_nil in A. apply map_eq_nil in B. subst ch ch'. auto. }
    assert (Hlist : inner p ss = sp_join ss -> inner p' ss' = sp_join ss' -> ch = ch' /\ x = x').
    { intros A B. rewrite A, B in Heq. exact (strs_join ch ch' ss ss' x x' IHr Hc Hc' Hss Hss' Heq). }
    assert (Hone : forall c c', ch = [c] -> ch' = [c'] -> first_or_none ss ++ 41%N :: x = first_or_none ss' ++ 41%N :: x' -> c = c' /\ x = x').
    { intros c c' -> -> He. destruct (strs_one _ _ Hss) as (s1 & H1 & ->). destruct (strs_one _ _ Hss') as (s2 & H2 & ->). cbn [first_or_none] in He.
      inversion IHr as [|? ? Hrc _]; subst. destruct (Hrc c' s1 s2 (41%N :: x) (41%N :: x') H1 (Hc' c' (or_introl eq_refl)) H2) as [-> E]; auto.
      - cbn. auto.
      - cbn. auto.
      - injection E as ->. auto. }
    assert (Hop : forall c d z, d = [c] -> (forall e, In e d -> showable e) -> strs d = Ok z -> opened (first_or_none z ++ 41%N :: x)
                   /\ opened (first_or_none z ++ 41%N :: x')).
    { intros c d z -> Hd Hz. pose proof (opened_first _ _ Hd Hz) as Ho. destruct (strs_one _ _ Hz) as (s1 & _ & ->). inversion Ho as [|? ? (y & ->) _]; subst.
      split; eexists; reflexivity. }
    destruct p, p'; cbn in Ht; try discriminate Ht; clear Ht; cbn [str_ok] in Hp, Hp'; cbn [inner] in Heq;
      try (destruct (Hlist eq_refl eq_refl) as [-> ->]; auto; fail).
    - apply Hmap; [apply Hp|apply Hp'|]. eapply expr_split; [apply Hp|apply Hp'|exact Heq].
    - destruct Hp as (cl & Hp). destruct Hp' as (cl' & Hp'). apply one_child in Hp. apply one_child in Hp'.
      destruct Hp as (c & Hch & _). destruct Hp' as (c' & Hch' & _). cbn [app] in Heq. injection Heq as Heq.
      destruct (Hone c c' Hch Hch' Heq) as [-> ->]. subst. auto.
    - destruct Hp as (cl & Hp). destruct Hp' as (cl' & Hp'). apply one_child in Hp. apply one_child in Hp'.
      destruct Hp as (c & Hch & _). destruct Hp' as (c' & Hch' & _). cbn [app] in Heq. injection Heq as Heq.
      destruct (Hone c c' Hch Hch' Heq) as [-> ->]. subst. auto.
    - destruct Hp as (cl & Hp & Hcl). destruct Hp' as (cl' & Hp' & Hcl'). apply one_child in Hp. apply one_child in Hp'.
      destruct Hp as (c & Hch & <-). destruct Hp' as (c' & Hch' & <-). cbn [app] in Heq. injection Heq as Heq. rewrite <- !app_assoc in Heq.
      apply occurs_split in Heq; [|exact (proj1 (Hop c ch ss Hch Hc Hss))|exact (proj2 (Hop c' ch' ss' Hch' Hc' Hss'))]. destruct Heq as (-> & -> & Heq).
      destruct (Hone c c' Hch Hch' Heq) as [-> ->]. subst. auto.
    - exfalso. destruct Hp as (cl & Hp & Hcl). destruct Hp' as (cl' & Hp' & Hcl'). apply one_child in Hp. apply one_child in Hp'.
      destruct Hp as (c & Hch & <-). destruct Hp' as (c' & Hch' & <-). cbn [app] in Heq. injection Heq as Heq. rewrite <- !app_assoc in Heq.
      apply occurs_split in Heq; [|exact (proj1 (Hop c ch ss Hch Hc Hss))|exact (proj2 (Hop c' ch' ss' Hch' Hc' Hss'))]. destruct Heq as (-> & -> & Heq).
      destruct (Hone c c' Hch Hch' Heq) as [-> _]. tauto.
    - exfalso. destruct Hp as (cl & Hp & Hcl). destruct Hp' as (cl' & Hp' & Hcl'). apply one_child in Hp. apply one_child in Hp'.
      destruct Hp as (c & Hch & <-). destruct Hp' as (c' & Hch' & <-). cbn [app] in Heq. injection Heq as Heq. rewrite <- !app_assoc in Heq.
      apply occurs_split in Heq; [|exact (proj1 (Hop c ch ss Hch Hc Hss))|exact (proj2 (Hop c' ch' ss' Hch' Hc' Hss'))]. destruct Heq as (-> & -> & Heq).
      destruct (Hone c c' Hch Hch' Heq) as [-> _]. tauto.
    - destruct Hp as (cl & Hp & Hcl). destruct Hp' as (cl' & Hp' & Hcl'). apply one_child in Hp. apply one_child in Hp'.
      destruct Hp as (c & Hch & <-). destruct Hp' as (c' & Hch' & <-). cbn [app] in Heq. injection Heq as Heq. rewrite <- !app_assoc in Heq.
      apply occurs_split in Heq; [|exact (proj1 (Hop c ch ss Hch Hc Hss))|exact (proj2 (Hop c' ch' ss' Hch' Hc' Hss'))]. destruct Heq as (-> & -> & Heq).
      destruct (Hone c c' Hch Hch' Heq) as [-> ->]. subst. auto.
    - apply Hmap; [exact Hp|exact Hp'|]. cbn [app] in Heq. injection Heq as Heq.
      destruct s, s0; cbn in Heq; try discriminate Heq; injection Heq as ->; auto. }
  destruct Hgoal as (-> & -> & Hx). unfold x, x' in Hx. apply loc_suffix_inj in Hx; auto. destruct Hx as [-> ->]. auto.
Qed.
