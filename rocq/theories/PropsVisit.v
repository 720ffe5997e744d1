(** C35, C36: visiting query trees. *)
From Coq Require Import String.
From Verif Require Import Base Regex LexRules Lexer Grammar Antlr Ast Builder Parser ModelTests
  SpellSpec BuilderFacts ParseSpec ParseFacts TreeSpec CoverSpec AccessSpec PropsParse PropsTree PropsCover PropsAccess.
Local Open Scope Z_scope.

Lemma visit_eq {A B R} (cls : methods (S:=A) (E:=B) (R:=R)) p l ch s :
  visit cls (QN p l ch) s =
  match cls (u "visit_" ++ node_type_str (ntype_of p)) with
  | Some m => m (visit_children (visit cls) ch None) (QN p l ch) s
  | None => visit_children (visit cls) ch None s
  end.
Proof.
  reflexivity.
Qed.
Lemma vc_cons {A B R} (v : qnode -> A -> outcome (S:=A) (E:=B) (R:=R)) c l acc s :
  visit_children v (c :: l) acc s = match v c s with (s', inr r) => visit_children v l r s' | (s', inl e) => (s', inl e) end.
Proof. reflexivity. Qed.

(** The loop of [visitChildren] as written, parser.py:177-188: [get_child(i)] for
    [i in range(child_count)]; [None] would be a failing assertion or IndexError. *)
Fixpoint visit_range {A B R} (v : qnode -> A -> outcome (S:=A) (E:=B) (R:=R)) (n : qnode) (is_ : list Z) (acc : option R) (s : A)
  : option (outcome (S:=A) (E:=B) (R:=R)) :=
  match is_ with
  | [] => Some (s, inr acc)
  | i :: is' =>
      match get_child n i None with
      | Ok (Some c) => match v c s with (s', inr r) => visit_range v n is' r s' | (s', inl e) => Some (s', inl e) end
      | _ => None
      end
  end.
Definition range (k : nat) : list Z := map Z.of_nat (seq 0 k).
(** Iterating over the children (as [visit_children] does) is the same. *)
Theorem C35_loop : forall A B R (v : qnode -> A -> outcome (S:=A) (E:=B) (R:=R)) n acc s,
  visit_range v n (range (List.length (q_children n))) acc s = Some (visit_children v (q_children n) acc s).
Proof.
  intros A B R v n. unfold range.
  assert (H : forall b a, q_children n = b ++ a -> forall acc s,
    visit_range v n (map Z.of_nat (seq (List.length b) (List.length a))) acc s = Some (visit_children v a acc s)).
  { intros b a. revert b. induction a as [|c a IH]; intros b Hc acc s; [reflexivity|]. cbn [List.length seq map visit_range].
    destruct (C28_in_bounds n (Z.of_nat (List.length b))) as (c' & -> & Hat).
    { unfold child_count. rewrite Hc, app_length. cbn. lia. }
    apply has_child_at_nth in Hat. destruct Hat as [_ Hat]. rewrite Hc, Nat2Z.id, nth_error_app2, Nat.sub_diag in Hat by lia. injection Hat as <-.
    rewrite vc_cons. destruct (v c s) as [s' [e|r]]; [reflexivity|].
    specialize (IH (b ++ [c])). rewrite <- app_assoc in IH. specialize (IH Hc r s'). rewrite app_length in IH. cbn [List.length] in IH.
    replace (S (List.length b)) with (List.length b + 1)%nat by lia. exact IH. }
  intros acc s. apply (H [] (q_children n) eq_refl).
Qed.

(** ** C35 *)
(** The handler looked up for a node. *)
Definition handler_name (n : qnode) : pystr := u "visit_" ++ node_type_str (ntype_of (q_payload n)).
(** A visitor derived from QueryVisitorAdapter whose handlers with names in [over] are
    overridden: each applies [f] to the node and the visitor's state and then calls
    [super()]. *)
Definition overriding {A B R} (over : pystr -> bool) (f : qnode -> A -> A) : methods (S:=A) (E:=B) (R:=R) :=
  fun name => if over name then Some (fun sup n s => sup (f n s)) else adapter name.
Theorem C35_traversal : forall A B R (over : pystr -> bool) (f : qnode -> A -> A) n s,
  visit (overriding (B:=B) (R:=R) over f) n s =
  (fold_left (fun s m => if over (handler_name m) then f m s else s) (preorder n) s, inr None).
Proof.
  intros A B R over f n. induction n as [p l ch IH] using qnode_ind'. intros s. rewrite visit_eq. cbn [preorder fold_left].
  assert (H : forall s, visit_children (visit (overriding (B:=B) (R:=R) over f)) ch None s =
    (fold_left (fun s m => if over (handler_name m) then f m s else s) (flat_map preorder ch) s, inr None)).
  { clear s. induction IH as [|c ch Hc _ IHch]; intros s; [reflexivity|]. rewrite vc_cons, Hc. cbn [flat_map]. rewrite fold_left_app. apply IHch. }
  change (u "visit_" ++ node_type_str (ntype_of p)) with (handler_name (QN p l ch)). unfold overriding at 1.
  destruct (over (handler_name (QN p l ch))); [apply H|]. unfold adapter. destruct (str_in _ _); apply H.
Qed.
(** Recording every visited node: all nodes, parents first, left to right. *)
Theorem C35_every_node : forall B R n,
  visit (overriding (B:=B) (R:=R) (fun _ => true) (fun m log => log ++ [m])) n [] = (preorder n, inr None).
Proof.
  intros B R n. rewrite C35_traversal. f_equal.
  assert (H : forall l acc, fold_left (fun s m => if (fun _ : pystr => true) (handler_name m) then s ++ [m] else s) l acc = acc ++ l).
  { induction l as [|m l IH]; intros acc; cbn; [rewrite app_nil_r; reflexivity|]. rewrite IH, <- app_assoc. reflexivity. }
  apply (H (preorder n) []).
Qed.
(** Recording in some handlers only. *)
Lemma record_filter (g : qnode -> bool) l : forall acc,
  fold_left (fun s m => if g m then s ++ [m] else s) l acc = acc ++ filter g l.
Proof.
  induction l as [|m l IH]; intros acc; cbn; [rewrite app_nil_r; reflexivity|]. rewrite IH. destruct (g m); [rewrite <- app_assoc|]; reflexivity.
Qed.
Definition is_class (c : class) (n : qnode) : bool := if class_eq_dec (q_class n) c then true else false.
Theorem C35_expressions : forall B R n,
  visit (overriding (B:=B) (R:=R) (str_eqb (u "visit_Expression")) (fun m log => log ++ [m])) n [] =
  (filter (is_class CExpression) (preorder n), inr None).
Proof.
  intros B R n. rewrite C35_traversal, (record_filter (fun m => str_eqb (u "visit_Expression") (handler_name m))). cbn [app]. f_equal.
  apply filter_ext. intros [p l ch]. unfold handler_name, is_class, q_class. cbn [q_payload]. destruct p; reflexivity.
Qed.
(** For a parsed query these are its literals, in text order. *)
Definition is_literal (k : option token) : bool := match k with Some _ => true | None => false end.
Theorem C35_text_order : forall V P q n B R, env_ok V -> parse V P q = Ok n ->
  exists es, visit (overriding (B:=B) (R:=R) (str_eqb (u "visit_Expression")) (fun m log => log ++ [m])) n [] = (es, inr None) /\
    Forall2 (same_leaf (e_penv V) (qp_cfg P)) (filter is_literal (query_leaves (lx_tokens (lexemes q)))) (map q_payload es).
Proof.
  intros V P q n B R HV Hp. eexists. split; [apply C35_expressions|]. pose proof (C17_leaves V P q n HV Hp) as H.
  replace (map q_payload (filter (is_class CExpression) (preorder n))) with (filter (fun p => class_eqb (class_of p) CExpression) (tree_leaves n)).
  - induction H as [|k p ks ps Hkp _ IH]; [constructor|]. cbn [filter].
    destruct k as [k|], p; cbn in Hkp; try contradiction; cbn [is_literal class_of class_eqb]; cbn; try (constructor; [exact Hkp|]); exact IH.
  - clear. induction n as [p l ch IH] using qnode_ind'. cbn [tree_leaves preorder filter map].
    assert (Hc : filter (fun p => class_eqb (class_of p) CExpression) (flat_map tree_leaves ch) = map q_payload (filter (is_class CExpression) (flat_map preorder ch))).
    { induction IH as [|c ch Hc _ IHch]; [reflexivity|]. cbn [flat_map]. rewrite !filter_app, map_app, Hc, IHch. reflexivity. }
    rewrite filter_app, Hc. unfold is_class at 1, q_class. cbn [q_payload]. destruct p; reflexivity.
Qed.
Example C35_witness : exists n, parse some_env (new_parser (default_cfg false)) (u "('a' | [!x='b']) within s") = Ok n /\
  map q_class (preorder n) = [CQueryWithWithin; CQueryGroup; CQueryDisjunction; CQuerySegment; CExpression; CQuerySegment; CExpressionNot; CExpression; CSimpleWithin].
Proof. eexists. split; vm_compute; reflexivity. Qed.

(** ** C36 *)
(** Overriding the adapter's method for class [c] sees: *)
Definition reaches (c : class) (m : qnode) : Prop :=
  ~ In c unreachable_handler /\ (q_class m = c \/ (c = CQuerySegment /\ q_class m = CQueryGroup)).
Theorem C36_exact : forall B R c n, exists seen,
  visit (overriding (B:=B) (R:=R) (str_eqb (adapter_method c)) (fun m log => log ++ [m])) n [] = (seen, inr None) /\
  (forall m, In m seen <-> In m (preorder n) /\ reaches c m) /\
  (exists g, seen = filter g (preorder n)).
Proof.
  intros B R c n. eexists. split; [|split].
  - rewrite C35_traversal, (record_filter (fun m => str_eqb (adapter_method c) (handler_name m))). cbn [app]. reflexivity.
  - intros m. rewrite filter_In. apply and_iff_compat_l. unfold reaches, unreachable_handler. destruct m as [p l ch].
    unfold handler_name, q_class. cbn [q_payload]. destruct c, p; vm_compute; intuition (try discriminate).
  - eexists. reflexivity.
Qed.
(** The promise fails for six of the twelve classes. *)
Theorem C36_refuted : forall B R c, In c unreachable_handler -> forall n,
  visit (overriding (B:=B) (R:=R) (str_eqb (adapter_method c)) (fun m log => log ++ [m])) n [] = ([], inr None).
Proof.
  intros B R c Hc n. destruct (C36_exact B R c n) as (seen & -> & Hs & _). f_equal. destruct seen as [|m seen]; [reflexivity|].
  exfalso. destruct (proj1 (Hs m) (or_introl eq_refl)) as [_ [H _]]. contradiction.
Qed.
Theorem C36_dispatched : forall B R c n, ~ In c (CQuerySegment :: unreachable_handler) ->
  visit (overriding (B:=B) (R:=R) (str_eqb (adapter_method c)) (fun m log => log ++ [m])) n [] =
  (filter (is_class c) (preorder n), inr None).
Proof.
  intros B R c n Hc. rewrite C35_traversal, (record_filter (fun m => str_eqb (adapter_method c) (handler_name m))). cbn [app]. f_equal.
  apply filter_ext. intros [p l ch]. unfold handler_name, is_class, q_class. cbn [q_payload].
  destruct c; try (exfalso; apply Hc; cbn; tauto); destruct p; reflexivity.
Qed.
Example C36_witness : exists n, parse some_env (new_parser (default_cfg false)) (u "([a='x' & b='y'])") = Ok n /\
  visit (overriding (B:=unit) (R:=unit) (str_eqb (u "visit_ExpressionAnd")) (fun m log => log ++ [q_class m])) n [] = ([], inr None) /\
  visit (overriding (B:=unit) (R:=unit) (str_eqb (u "visit_QuerySegment")) (fun m log => log ++ [q_class m])) n [] = ([CQueryGroup; CQuerySegment], inr None).
Proof. eexists. split; [vm_compute; reflexivity|]. split; vm_compute; reflexivity. Qed.
